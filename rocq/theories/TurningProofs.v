(** Polynomials: derivatives, and that the expansion at the turning point is unique. *)
From Coq Require Import Reals List Lra Lia.
From Coquelicot Require Import Coquelicot.
From Verif Require Import TurningSpec.
Import ListNotations.
Open Scope R_scope.

(** * Derivatives of polynomials *)
Fixpoint derivative (k : nat) (l : list R) : list R :=
  match l with [] => [] | a :: l => INR k * a :: derivative (S k) l end.
Definition slope (l : list R) : list R := derivative 1 (tl l).
Lemma derivative_value k l x : polynomial (derivative (S k) l) x = polynomial (derivative k l) x + polynomial l x.
Proof.
  revert k. induction l as [|a l IH]; intros k; cbn [derivative polynomial]; [lra|]. rewrite (IH (S k)), S_INR. ring.
Qed.
Lemma polynomial_derive l x : is_derive (polynomial l) x (polynomial (slope l) x).
Proof.
  unfold slope. induction l as [|a l IH].
  - cbn. apply (is_derive_ext (fun _ => 0)); [reflexivity|]. exact (is_derive_const 0 x).
  - cbn [tl]. apply (is_derive_ext (fun t => a + t * polynomial l t)); [reflexivity|].
    evar_last. { apply @is_derive_plus; [apply is_derive_const|]. apply @is_derive_mult; [apply is_derive_id | exact IH | intros n m; apply Rmult_comm]. }
    unfold plus, mult, zero, one; cbn. destruct l as [|b l]; [cbn; lra|]. cbn [tl polynomial derivative]. rewrite (derivative_value 1 l x). cbn [INR]. ring.
Qed.
Lemma polynomial_Derive l x : Derive (polynomial l) x = polynomial (slope l) x.
Proof. apply is_derive_unique, polynomial_derive. Qed.
Lemma polynomial_Derive2 l x : Derive_n (polynomial l) 2 x = polynomial (slope (slope l)) x.
Proof. cbn. rewrite (Derive_ext _ (polynomial (slope l))) by (intros; apply polynomial_Derive). apply polynomial_Derive. Qed.

(** * A polynomial that vanishes has no coefficients *)
Lemma polynomial_continuous l x : continuous (polynomial l) x.
Proof. apply (@ex_derive_continuous _ _ (polynomial l)). eexists. apply polynomial_derive. Qed.
Lemma vanishing l : (forall x, polynomial l x = 0) -> forall i, nth i l 0 = 0.
Proof.
  induction l as [|a l IH]; intros H i; [destruct i; reflexivity|]. cbn [polynomial] in H.
  assert (a = 0) as -> by (pose proof (H 0) as H0; rewrite Rmult_0_l in H0; lra).
  assert (N : forall x, x <> 0 -> polynomial l x = 0) by (intros x Hx; pose proof (H x) as E; apply (Rmult_eq_reg_l x); [lra | exact Hx]).
  destruct i as [|i]; [reflexivity|]. cbn [nth]. apply IH. intros x. destruct (Req_dec x 0) as [->|Hx]; [|apply N; exact Hx].
  destruct (Req_dec (polynomial l 0) 0) as [E|E]; [exact E|]. exfalso.
  pose proof (polynomial_continuous l 0) as C. apply continuity_pt_filterlim in C. destruct (C (Rabs (polynomial l 0)) (Rabs_pos_lt _ E)) as (d & Hd & C').
  specialize (C' (d / 2)). rewrite (N (d / 2)) in C' by lra. simpl in C'. unfold R_dist in C'.
  assert (Rabs (0 - polynomial l 0) < Rabs (polynomial l 0)). { apply C'. split; [split; [exact Logic.I | lra]|]. rewrite Rabs_pos_eq; lra. }
  rewrite Rminus_0_l, Rabs_Ropp in H0. lra.
Qed.
Lemma zero_coefficients l : (forall i, nth i l 0 = 0) -> forall x, polynomial l x = 0.
Proof.
  induction l as [|a l IH]; intros H x; [reflexivity|]. cbn [polynomial]. pose proof (H 0%nat) as E. cbn in E. rewrite E, IH by (intros i; exact (H (S i))). ring.
Qed.

(** * Lists of coefficients *)
Fixpoint sum (l m : list R) : list R :=
  match l, m with [], _ => m | _, [] => l | a :: l, b :: m => a + b :: sum l m end.
Definition scale (c : R) (l : list R) : list R := map (Rmult c) l.
Lemma sum_value l m x : polynomial (sum l m) x = polynomial l x + polynomial m x.
Proof. revert m. induction l as [|a l IH]; intros [|b m]; cbn [sum polynomial]; rewrite ?IH; ring. Qed.
Lemma scale_value c l x : polynomial (scale c l) x = c * polynomial l x.
Proof. induction l as [|a l IH]; cbn [scale map polynomial]; [ring|]. unfold scale in IH. rewrite IH. ring. Qed.
Lemma sum_nth l m i : nth i (sum l m) 0 = nth i l 0 + nth i m 0.
Proof.
  revert m i. induction l as [|a l IH]; intros [|b m] [|i]; cbn [sum nth]; try ring. apply IH.
Qed.
Lemma scale_nth c l i : nth i (scale c l) 0 = c * nth i l 0.
Proof. revert i. induction l as [|a l IH]; intros [|i]; [symmetry; apply Rmult_0_r | symmetry; apply Rmult_0_r | reflexivity | apply IH]. Qed.
Lemma derivative_nth k l i : nth i (derivative k l) 0 = INR (k + i) * nth i l 0.
Proof.
  revert k i. induction l as [|a l IH]; intros k [|i]; cbn [derivative nth]; rewrite ?Rmult_0_r, ?Nat.add_0_r; try reflexivity. rewrite IH. do 2 f_equal. lia.
Qed.
Lemma slope_nth l i : nth i (slope l) 0 = INR (S i) * nth (S i) l 0.
Proof. unfold slope. rewrite derivative_nth. replace (1 + i)%nat with (S i) by lia. destruct l as [|a l]; cbn [tl nth]; [destruct i; reflexivity | reflexivity]. Qed.

(** * q''' + 4 x q' + 2 q = 0 has no polynomial solution but zero *)
Lemma no_polynomial q : (forall x, polynomial (slope (slope (slope q))) x + 4 * x * polynomial (slope q) x + 2 * polynomial q x = 0) -> forall i, nth i q 0 = 0.
Proof.
  intros H. set (l := sum (slope (slope (slope q))) (sum (scale 4 (0 :: slope q)) (scale 2 q))).
  assert (V : forall i, nth i l 0 = 0).
  { apply vanishing. intros x. unfold l. rewrite !sum_value, !scale_value. cbn [polynomial]. etransitivity; [|apply (H x)]. ring. }
  assert (E : forall i, INR (S (S (S i))) * (INR (S (S i)) * INR (S i)) * nth (S (S (S i))) q 0 + (4 * INR i + 2) * nth i q 0 = 0).
  { intros i. etransitivity; [|exact (V i)]. unfold l. rewrite !sum_nth, !scale_nth, !slope_nth. destruct i as [|i]; [change (nth 0 (0 :: slope q) 0) with 0 | change (nth (S i) (0 :: slope q) 0) with (nth i (slope q) 0); rewrite slope_nth]; rewrite !S_INR; change (INR 0) with 0; ring. }
  assert (forall d i, (length q <= i + d)%nat -> nth i q 0 = 0).
  { induction d as [|d IH]; intros i Hi; [apply nth_overflow; lia|]. pose proof (E i) as Ei. rewrite (IH (S (S (S i)))) in Ei by lia.
    assert (0 <= INR i) by apply pos_INR. rewrite Rmult_0_r, Rplus_0_l in Ei. apply Rmult_integral in Ei. destruct Ei as [Ei|Ei]; lra. }
  intros i. apply (H0 (length q)). lia.
Qed.

(** * The expansion is unique *)
Section Unique.
Variables (n : nat) (p q p' q' : nat -> R -> R).
Hypotheses (T : turning_expansion n p q) (T' : turning_expansion n p' q').

Lemma same_order k : (k <= n)%nat -> (forall i x, (i < k)%nat -> p i x = p' i x /\ q i x = q' i x) -> forall x, p k x = p' k x /\ q k x = q' k x.
Proof.
  intros Hk IH. destruct k as [|k].
  { intros x. destruct (te_first _ _ _ T x) as [-> ->]. destruct (te_first _ _ _ T' x) as [-> ->]. split; reflexivity. }
  destruct (te_polynomial _ _ _ T (S k) Hk) as (lp & lq & L). destruct (te_polynomial _ _ _ T' (S k) Hk) as (lp' & lq' & L').
  assert (Ep : forall x, p (S k) x = polynomial lp x) by (intros x; apply L). assert (Eq : forall x, q (S k) x = polynomial lq x) by (intros x; apply L).
  assert (Ep' : forall x, p' (S k) x = polynomial lp' x) by (intros x; apply L'). assert (Eq' : forall x, q' (S k) x = polynomial lq' x) by (intros x; apply L').
  assert (Q2 : forall f l, (forall x, f x = polynomial l x) -> forall x, Derive f x = polynomial (slope l) x /\ Derive_n f 2 x = polynomial (slope (slope l)) x).
  { intros f l E x. rewrite (Derive_ext f (polynomial l)), (Derive_n_ext f (polynomial l)) by exact E. split; [apply polynomial_Derive | apply polynomial_Derive2]. }
  assert (R1 : forall x, defect_p (p k) (q k) x - x * p k x = defect_p (p' k) (q' k) x - x * p' k x /\ defect_q (p k) (q k) x - x * q k x = defect_q (p' k) (q' k) x - x * q' k x).
  { intros x. unfold defect_p, defect_q. assert (Hp : forall y, p k y = p' k y) by (intros y; apply IH; lia). assert (Hq : forall y, q k y = q' k y) by (intros y; apply IH; lia).
    rewrite (Derive_ext (q k) (q' k)), (Derive_ext (p k) (p' k)), (Derive_n_ext (p k) (p' k)), (Derive_n_ext (q k) (q' k)), Hp, Hq by assumption. split; reflexivity. }
  set (a := sum lp (scale (-1) lp')). set (b := sum lq (scale (-1) lq')).
  assert (Ha : forall x, polynomial a x = p (S k) x - p' (S k) x) by (intros x; unfold a; rewrite sum_value, scale_value, Ep, Ep'; ring).
  assert (Hb : forall x, polynomial b x = q (S k) x - q' (S k) x) by (intros x; unfold b; rewrite sum_value, scale_value, Eq, Eq'; ring).
  assert (Sl : forall l m x, polynomial (slope (sum l (scale (-1) m))) x = polynomial (slope l) x - polynomial (slope m) x).
  { intros l m x. rewrite <- !polynomial_Derive. rewrite (Derive_ext _ (fun t => polynomial l t - polynomial m t)) by (intros t; rewrite sum_value, scale_value; ring).
    rewrite Derive_minus; [reflexivity | eexists; apply polynomial_derive ..]. }
  assert (Sl2 : forall l m x, polynomial (slope (slope (sum l (scale (-1) m)))) x = polynomial (slope (slope l)) x - polynomial (slope (slope m)) x).
  { intros l m x. rewrite <- !polynomial_Derive. rewrite (Derive_ext _ (fun t => polynomial (slope l) t - polynomial (slope m) t)) by (intros t; apply Sl).
    rewrite Derive_minus; [reflexivity | eexists; apply polynomial_derive ..]. }
  assert (Dp : forall x, polynomial (slope (slope a)) x - polynomial b x - 2 * x * polynomial (slope b) x = 0).
  { intros x. destruct (te_order _ _ _ T k x ltac:(lia)) as [O1 _]. destruct (te_order _ _ _ T' k x ltac:(lia)) as [O1' _]. destruct (R1 x) as [R _]. rewrite R in O1.
    unfold a, b. rewrite Sl2, Sl, sum_value, scale_value. set (z := defect_p (p' k) (q' k) x) in *. unfold defect_p in O1, O1'. destruct (Q2 _ _ Ep x) as [_ E1]. destruct (Q2 _ _ Eq x) as [E2 _].
    destruct (Q2 _ _ Ep' x) as [_ E1']. destruct (Q2 _ _ Eq' x) as [E2' _]. rewrite E1, E2, Eq in O1. rewrite E1', E2', Eq' in O1'. lra. }
  assert (Dq : forall x, 2 * polynomial (slope a) x + polynomial (slope (slope b)) x = 0).
  { intros x. destruct (te_order _ _ _ T k x ltac:(lia)) as [_ O1]. destruct (te_order _ _ _ T' k x ltac:(lia)) as [_ O1']. destruct (R1 x) as [_ R]. rewrite R in O1.
    unfold a, b. rewrite Sl2, Sl. set (z := defect_q (p' k) (q' k) x) in *. unfold defect_q in O1, O1'. destruct (Q2 _ _ Ep x) as [E1 _]. destruct (Q2 _ _ Eq x) as [_ E2].
    destruct (Q2 _ _ Ep' x) as [E1' _]. destruct (Q2 _ _ Eq' x) as [_ E2']. rewrite E1, E2 in O1. rewrite E1', E2' in O1'. lra. }
  assert (Hb0 : forall i, nth i b 0 = 0).
  { apply no_polynomial. intros x.
    assert (E : Derive (fun t => 2 * polynomial (slope a) t + polynomial (slope (slope b)) t) x = 0).
    { rewrite (Derive_ext _ (fun _ => 0)) by (intros; apply Dq). apply Derive_const. }
    rewrite Derive_plus, Derive_scal, !polynomial_Derive in E; [|apply ex_derive_scal; eexists; apply polynomial_derive | eexists; apply polynomial_derive].
    pose proof (Dp x) as D. lra. }
  assert (Zb : forall x, q (S k) x = q' (S k) x) by (intros x; pose proof (zero_coefficients b Hb0 x) as Z; rewrite Hb in Z; lra).
  assert (Za : forall i, nth (S i) a 0 = 0).
  { intros i. assert (forall j, nth j (slope (slope b)) 0 = 0) by (intros j; rewrite !slope_nth, Hb0; ring).
    assert (V : forall j, nth j (slope a) 0 = 0). { apply vanishing. intros x. pose proof (Dq x) as D. rewrite (zero_coefficients (slope (slope b))) in D by assumption. lra. }
    pose proof (V i) as Vi. rewrite slope_nth in Vi. apply Rmult_integral in Vi. destruct Vi as [Vi|Vi]; [|exact Vi]. pose proof (lt_0_INR (S i) ltac:(lia)). lra. }
  assert (Ca : forall x, polynomial a x = nth 0 a 0).
  { intros x. destruct a as [|a0 l]; [reflexivity|]. cbn [polynomial nth]. rewrite (zero_coefficients l) by (intros i; exact (Za i)). ring. }
  assert (Dpp : forall x, Derive (p (S k)) x = Derive (p' (S k)) x).
  { intros x. destruct (Q2 _ _ Ep x) as [-> _]. destruct (Q2 _ _ Ep' x) as [-> _]. pose proof (Sl lp lp' x) as E. fold a in E.
    rewrite (zero_coefficients (slope a)) in E by (intros i; rewrite slope_nth, Za; ring). lra. }
  assert (Dqq : forall x, Derive (q (S k)) x = Derive (q' (S k)) x) by (intros x; apply Derive_ext; exact Zb).
  assert (Z0 : nth 0 a 0 = 0).
  { pose proof (te_wronskian _ _ _ T k ltac:(lia)) as W. pose proof (te_wronskian _ _ _ T' k ltac:(lia)) as W'. 
    rewrite (decomp_sum _ (S k)) in W by lia. rewrite (decomp_sum _ (S k)) in W' by lia. cbn [pred] in W, W'.
    destruct k as [|k].
    - cbn [sum_f_R0] in W, W'. unfold wronskian_term in W, W'. cbn [Nat.sub] in W, W'.
      destruct (te_first _ _ _ T 0) as [F1 F2]. destruct (te_first _ _ _ T' 0) as [F1' F2']. rewrite F1, F2 in W. rewrite F1', F2' in W'.
      assert (D0 : forall f c x, (forall y : R, f y = c) -> Derive f x = 0) by (intros f c x E; rewrite (Derive_ext f (fun _ => c)) by exact E; apply Derive_const).
      rewrite (D0 (q 0%nat) 0), (D0 (p 0%nat) 1) in W by (intros y; apply (te_first _ _ _ T y)).
      rewrite (D0 (q' 0%nat) 0), (D0 (p' 0%nat) 1) in W' by (intros y; apply (te_first _ _ _ T' y)).
      rewrite <- (Ca 0), Ha. rewrite Dqq in W. lra.
    - cbn [sum_f_R0] in W, W'. replace (S (S k) - S (S k))%nat with 0%nat in W, W' by lia.
      assert (M : sum_f_R0 (fun i => wronskian_term p q (S i) (S (S k) - S i)) k = sum_f_R0 (fun i => wronskian_term p' q' (S i) (S (S k) - S i)) k).
      { apply sum_eq. intros i Hi. unfold wronskian_term. assert (L1 : (S i < S (S k))%nat) by lia. assert (L2 : (S (S k) - S i < S (S k))%nat) by lia.
        destruct (IH _ 0 L1) as [-> ->]. destruct (IH _ 0 L2) as [-> _].
        rewrite (Derive_ext (q (S (S k) - S i)%nat) (q' (S (S k) - S i)%nat)) by (intros y; apply (IH _ y L2)). rewrite (Derive_ext (p (S (S k) - S i)%nat) (p' (S (S k) - S i)%nat)) by (intros y; apply (IH _ y L2)). reflexivity. }
      rewrite M in W. unfold wronskian_term in W at 1 3. unfold wronskian_term in W' at 1 3. replace (S (S k) - 0)%nat with (S (S k)) in W, W' by lia.
      destruct (te_first _ _ _ T 0) as [F1 F2]. destruct (te_first _ _ _ T' 0) as [F1' F2']. rewrite F1, F2 in W. rewrite F1', F2' in W'.
      assert (D0 : forall f c x, (forall y : R, f y = c) -> Derive f x = 0) by (intros f c x E; rewrite (Derive_ext f (fun _ => c)) by exact E; apply Derive_const).
      rewrite (D0 (q 0%nat) 0), (D0 (p 0%nat) 1) in W by (intros y; apply (te_first _ _ _ T y)).
      rewrite (D0 (q' 0%nat) 0), (D0 (p' 0%nat) 1) in W' by (intros y; apply (te_first _ _ _ T' y)).
      rewrite <- (Ca 0), Ha. rewrite Dqq in W. lra. }
  intros x. split; [|apply Zb]. pose proof (Ca x) as E. rewrite Ha, Z0 in E. lra.
Qed.
Theorem unique k x : (k <= n)%nat -> p k x = p' k x /\ q k x = q' k x.
Proof.
  revert x. induction k as [k IH] using (well_founded_induction lt_wf). intros x Hk. apply same_order; [exact Hk|]. intros i y Hi. apply IH; [exact Hi | lia].
Qed.
End Unique.
