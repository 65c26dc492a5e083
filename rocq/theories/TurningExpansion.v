(** The polynomials of TurningSeries satisfy the equations, by computation with rationals. *)
From Coq Require Import Reals QArith Qreals List Lra Lia.
From Coquelicot Require Import Coquelicot.
From Verif Require Import TurningSpec TurningProofs TurningSeries.
Import ListNotations.
Open Scope R_scope.

Definition real_list (l : list Q) : list R := map Q2R l.
Definition pk (k : nat) : R -> R := polynomial (real_list (nth k ps [])).
Definition qk (k : nat) : R -> R := polynomial (real_list (nth k qs [])).

Fixpoint q_sum (l m : list Q) : list Q :=
  match l, m with [], _ => m | _, [] => l | a :: l, b :: m => Qplus a b :: q_sum l m end.
Definition q_scale (c : Q) (l : list Q) : list Q := map (Qmult c) l.
Fixpoint q_derivative (k : Z) (l : list Q) : list Q :=
  match l with [] => [] | a :: l => Qmult (inject_Z k) a :: q_derivative (k + 1) l end.
Definition q_slope (l : list Q) : list Q := q_derivative 1 (tl l).
Definition q_zero (l : list Q) : bool := forallb (fun a => Qeq_bool a 0%Q) l.

Lemma q_sum_value l m x : polynomial (real_list (q_sum l m)) x = polynomial (real_list l) x + polynomial (real_list m) x.
Proof. revert m. induction l as [|a l IH]; intros [|b m]; cbn [q_sum real_list map polynomial]; try ring. unfold real_list in IH. rewrite IH, Q2R_plus. ring. Qed.
Lemma q_scale_value c l x : polynomial (real_list (q_scale c l)) x = Q2R c * polynomial (real_list l) x.
Proof. induction l as [|a l IH]; cbn [q_scale real_list map polynomial]; [ring|]. unfold real_list, q_scale in IH. rewrite IH, Q2R_mult. ring. Qed.
Lemma Q2R_int k : Q2R (inject_Z k) = IZR k.
Proof. unfold Q2R, inject_Z. cbn. field. Qed.
Lemma q_derivative_value k l : derivative k (real_list l) = real_list (q_derivative (Z.of_nat k) l).
Proof.
  revert k. induction l as [|a l IH]; intros k; [reflexivity|]. cbn [real_list map derivative q_derivative]. f_equal.
  - rewrite Q2R_mult, Q2R_int, INR_IZR_INZ. reflexivity.
  - replace (Z.of_nat k + 1)%Z with (Z.of_nat (S k)) by lia. apply IH.
Qed.
Lemma q_slope_value l : slope (real_list l) = real_list (q_slope l).
Proof. unfold slope, q_slope. destruct l as [|a l]; [reflexivity|]. cbn [tl real_list map]. apply (q_derivative_value 1). Qed.
Lemma q_zero_value l x : q_zero l = true -> polynomial (real_list l) x = 0.
Proof.
  induction l as [|a l IH]; intros H; [reflexivity|]. cbn [q_zero forallb] in H. apply andb_prop in H. destruct H as [Ha H].
  cbn [real_list map polynomial]. unfold real_list in IH. rewrite IH by exact H. apply Qeq_bool_eq, Qeq_eqR in Ha. rewrite Ha. unfold Q2R. cbn. field.
Qed.

Lemma Q2R_0 : Q2R 0 = 0. Proof. unfold Q2R. cbn. field. Qed.
Lemma Q2R_2 : Q2R 2 = 2. Proof. unfold Q2R. cbn. field. Qed.
Lemma Q2R_m1 : Q2R (-1) = -1. Proof. unfold Q2R. cbn. field. Qed.
Lemma Q2R_m2 : Q2R (-2) = -2. Proof. unfold Q2R. cbn. field. Qed.

(** [defect_p] and [defect_q] *)
Definition q_defect_p (p q : list Q) : list Q := q_sum (q_slope (q_slope p)) (q_sum (q_scale (-1) q) (q_scale (-2) (0%Q :: q_slope q))).
Definition q_defect_q (p q : list Q) : list Q := q_sum (q_scale 2 (q_slope p)) (q_slope (q_slope q)).
Lemma defect_p_value p q x : defect_p (polynomial (real_list p)) (polynomial (real_list q)) x = polynomial (real_list (q_defect_p p q)) x.
Proof.
  unfold defect_p, q_defect_p. rewrite polynomial_Derive2, polynomial_Derive, !q_slope_value, !q_sum_value, !q_scale_value. cbn [real_list map polynomial]. change (map Q2R) with real_list. rewrite Q2R_0, Q2R_m1, Q2R_m2. ring.
Qed.
Lemma defect_q_value p q x : defect_q (polynomial (real_list p)) (polynomial (real_list q)) x = polynomial (real_list (q_defect_q p q)) x.
Proof.
  unfold defect_q, q_defect_q. rewrite polynomial_Derive2, polynomial_Derive, !q_slope_value, !q_sum_value, !q_scale_value, Q2R_2. ring.
Qed.
Definition order_p (k : nat) : list Q :=
  q_sum (q_defect_p (nth (S k) ps []) (nth (S k) qs [])) (0%Q :: q_sum (q_defect_p (nth k ps []) (nth k qs [])) (q_scale (-1) (0%Q :: nth k ps []))).
Definition order_q (k : nat) : list Q :=
  q_sum (q_defect_q (nth (S k) ps []) (nth (S k) qs [])) (0%Q :: q_sum (q_defect_q (nth k ps []) (nth k qs [])) (q_scale (-1) (0%Q :: nth k qs []))).
Lemma orders_vanish : forallb (fun k => q_zero (order_p k) && q_zero (order_q k)) (seq 0 8) = true.
Proof. vm_compute. reflexivity. Qed.

(** The values and slopes at zero *)
Definition c0 (l : list Q) : Q := nth 0 l 0%Q.
Definition c1 (l : list Q) : Q := nth 1 l 0%Q.
Lemma value_zero l : polynomial (real_list l) 0 = Q2R (c0 l).
Proof. destruct l as [|a l]; cbn; [unfold Q2R; cbn; ring | ring]. Qed.
Lemma slope_zero l : Derive (polynomial (real_list l)) 0 = Q2R (c1 l).
Proof.
  rewrite polynomial_Derive, q_slope_value, value_zero. unfold c0, c1, q_slope. destruct l as [|a [|b l]]; cbn [tl q_derivative nth]; [reflexivity | reflexivity|]. rewrite Q2R_mult. unfold Q2R at 1. cbn. field.
Qed.
Definition P0 (k : nat) : Q := c0 (nth k ps []).
Definition P1 (k : nat) : Q := c1 (nth k ps []).
Definition Q0 (k : nat) : Q := c0 (nth k qs []).
Definition Q1 (k : nat) : Q := c1 (nth k qs []).
Lemma pk_0 k : pk k 0 = Q2R (P0 k).
Proof. apply value_zero. Qed.
Lemma qk_0 k : qk k 0 = Q2R (Q0 k).
Proof. apply value_zero. Qed.
Lemma pk_1 k : Derive (pk k) 0 = Q2R (P1 k).
Proof. apply slope_zero. Qed.
Lemma qk_1 k : Derive (qk k) 0 = Q2R (Q1 k).
Proof. apply slope_zero. Qed.
Definition q_term (i j : nat) : Q := (P0 i * (P0 j + Q1 j) - Q0 i * P1 j)%Q.
Fixpoint q_total (f : nat -> Q) (n : nat) : Q := match n with O => f O | S m => Qplus (q_total f m) (f n) end.
Lemma q_total_value f n : Q2R (q_total f n) = sum_f_R0 (fun i => Q2R (f i)) n.
Proof. induction n as [|n IH]; cbn [q_total sum_f_R0]; [reflexivity|]. rewrite Q2R_plus, IH. reflexivity. Qed.
Lemma wronskian_vanishes : forallb (fun k => Qeq_bool (q_total (fun i => q_term i (S k - i)) (S k)) 0%Q) (seq 0 8) = true.
Proof. vm_compute. reflexivity. Qed.

Theorem expansion_exists : turning_expansion 8 pk qk.
Proof.
  split.
  - intros k _. exists (real_list (nth k ps [])), (real_list (nth k qs [])). intros x. split; reflexivity.
  - intros x. unfold pk, qk. cbn [nth ps qs real_list map polynomial]. unfold Q2R. cbn. split; [field | reflexivity].
  - intros k x Hk. pose proof orders_vanish as V. rewrite forallb_forall in V. specialize (V k). rewrite in_seq in V. specialize (V ltac:(lia)). apply andb_prop in V. destruct V as [V1 V2].
    unfold pk, qk. rewrite !defect_p_value, !defect_q_value. apply (q_zero_value _ x) in V1. apply (q_zero_value _ x) in V2. unfold order_p in V1. unfold order_q in V2.
    rewrite !q_sum_value in V1, V2. cbn [real_list map polynomial] in V1, V2. change (map Q2R) with real_list in V1, V2. rewrite !q_sum_value, !q_scale_value in V1, V2. cbn [real_list map polynomial] in V1, V2. change (map Q2R) with real_list in V1, V2.
    rewrite Q2R_0, Q2R_m1 in V1, V2. split; [etransitivity; [|exact V1] | etransitivity; [|exact V2]]; ring.
  - intros k Hk. pose proof wronskian_vanishes as V. rewrite forallb_forall in V. specialize (V k). rewrite in_seq in V. specialize (V ltac:(lia)). apply Qeq_bool_eq, Qeq_eqR in V.
    rewrite q_total_value in V. rewrite Q2R_0 in V. etransitivity; [|exact V]. apply sum_eq. intros i _. unfold wronskian_term, q_term. rewrite !pk_0, !qk_0, pk_1, qk_1.
    unfold Qminus. rewrite Q2R_plus, Q2R_opp, !Q2R_mult, Q2R_plus. ring.
Qed.
