(** The cubes of Gamma (1/3) and Gamma (2/3), bounded by products with rational corrections. *)
From Coq Require Import Reals QArith Qreals List Lra Lia.
From Coquelicot Require Import Coquelicot.
From Verif Require Import TurningSpec TurningProofs TurningExpansion.
Import ListNotations.
Open Scope R_scope.

Section Thirds.
Variable j : nat.
Hypothesis Hj : (0 < j)%nat.
Let x : R := INR j / 3.
Definition product (n : nat) : R := INR (fact n) * Rpower (INR n) x / rising x n.
Definition cube (n : nat) : R := INR (fact n) ^ 3 * INR n ^ j / rising x n ^ 3.
Lemma x_pos : 0 < x.
Proof. unfold x. pose proof (lt_0_INR j Hj). lra. Qed.
Lemma rising_pos n : 0 < rising x n.
Proof.
  pose proof x_pos as Hx. induction n as [|n IH]; [exact Hx|]. change (rising x (S n)) with (rising x n * (x + INR (S n))). pose proof (pos_INR (S n)). apply Rmult_lt_0_compat; lra.
Qed.
Lemma product_cube n : (0 < n)%nat -> product n ^ 3 = cube n.
Proof.
  intros Hn. pose proof (lt_0_INR n Hn) as Pn. unfold product, cube. pose proof (rising_pos n) as Pr.
  replace (INR n ^ j) with (Rpower (INR n) x ^ 3).
  - field. lra.
  - rewrite <- (Rpower_pow 3) by apply exp_pos. rewrite Rpower_mult, <- (Rpower_pow j) by exact Pn. f_equal. unfold x. cbn [INR]. lra.
Qed.
Lemma cube_pos n : (0 < n)%nat -> 0 < cube n.
Proof.
  intros Hn. pose proof (lt_0_INR n Hn) as Pn. unfold cube. apply Rdiv_lt_0_compat; [|apply pow_lt, rising_pos]. apply Rmult_lt_0_compat; [|apply pow_lt; exact Pn]. apply pow_lt, lt_0_INR, lt_O_fact.
Qed.
Lemma cube_step n : (0 < n)%nat -> let t := INR (S n) in cube (S n) * ((t - 1) ^ j * (3 * t + INR j) ^ 3) = cube n * (27 * t ^ (3 + j)).
Proof.
  intros Hn t. pose proof (lt_0_INR n Hn) as Pn. unfold cube. change (rising x (S n)) with (rising x n * (x + INR (S n))). fold t.
  assert (Et : INR n = t - 1) by (unfold t; rewrite S_INR; lra). rewrite Et. change (fact (S n)) with (S n * fact n)%nat. rewrite mult_INR. fold t.
  assert (E3 : 3 * t + INR j = 3 * (x + t)) by (unfold x; lra). rewrite E3. pose proof x_pos as Px. pose proof (rising_pos n) as Pr. rewrite pow_add. set (a := t ^ j). set (b := (t - 1) ^ j).
  field. split; [lra|]. rewrite Et in Pn. lra.
Qed.

Variables u d : list R.
Hypothesis first_u : polynomial u 0 = 1.
Hypothesis first_d : polynomial d 0 = 1.
Hypothesis Hu : forall t, 2 <= t -> polynomial u (/ t) * (27 * t ^ (3 + j)) <= polynomial u (/ (t - 1)) * ((t - 1) ^ j * (3 * t + INR j) ^ 3).
Hypothesis Hd : forall t, 2 <= t -> polynomial d (/ (t - 1)) * ((t - 1) ^ j * (3 * t + INR j) ^ 3) <= polynomial d (/ t) * (27 * t ^ (3 + j)).
Definition upper (n : nat) : R := cube n * polynomial u (/ INR n).
Definition lower (n : nat) : R := cube n * polynomial d (/ INR n).
Lemma divisor_pos n : (0 < n)%nat -> 0 < (INR (S n) - 1) ^ j * (3 * INR (S n) + INR j) ^ 3.
Proof.
  intros Hn. pose proof (lt_0_INR n Hn). pose proof (pos_INR j). rewrite S_INR. apply Rmult_lt_0_compat; apply pow_lt; lra.
Qed.
Lemma two_le n : (0 < n)%nat -> 2 <= INR (S n).
Proof. intros Hn. apply (le_INR 2). lia. Qed.
Lemma upper_step n : (0 < n)%nat -> upper (S n) <= upper n.
Proof.
  intros Hn. pose proof (cube_step n Hn) as E. cbv zeta in E. pose proof (divisor_pos n Hn) as P. pose proof (Hu _ (two_le n Hn)) as H. unfold upper.
  replace (INR n) with (INR (S n) - 1) by (rewrite S_INR; lra). set (t := INR (S n)) in *. set (w := (t - 1) ^ j * (3 * t + INR j) ^ 3) in *. set (z := 27 * t ^ (3 + j)) in *.
  apply (Rmult_le_reg_r w); [exact P|]. replace (cube (S n) * polynomial u (/ t) * w) with (cube (S n) * w * polynomial u (/ t)) by ring. rewrite E.
  pose proof (cube_pos n Hn) as Pc.
  rewrite !Rmult_assoc. apply Rmult_le_compat_l; [lra|]. rewrite (Rmult_comm z). exact H.
Qed.
Lemma lower_step n : (0 < n)%nat -> lower n <= lower (S n).
Proof.
  intros Hn. pose proof (cube_step n Hn) as E. cbv zeta in E. pose proof (divisor_pos n Hn) as P. pose proof (Hd _ (two_le n Hn)) as H. unfold lower.
  replace (INR n) with (INR (S n) - 1) by (rewrite S_INR; lra). set (t := INR (S n)) in *. set (w := (t - 1) ^ j * (3 * t + INR j) ^ 3) in *. set (z := 27 * t ^ (3 + j)) in *.
  apply (Rmult_le_reg_r w); [exact P|]. replace (cube (S n) * polynomial d (/ t) * w) with (cube (S n) * w * polynomial d (/ t)) by ring. rewrite E.
  pose proof (cube_pos n Hn) as Pc.
  rewrite !Rmult_assoc. apply Rmult_le_compat_l; [lra|]. rewrite (Rmult_comm z). exact H.
Qed.
Lemma upper_from n k : (0 < n)%nat -> upper (k + n) <= upper n.
Proof. intros Hn. induction k as [|k IH]; [apply Rle_refl|]. eapply Rle_trans; [apply (upper_step (k + n)); lia | exact IH]. Qed.
Lemma lower_from n k : (0 < n)%nat -> lower n <= lower (k + n).
Proof. intros Hn. induction k as [|k IH]; [apply Rle_refl|]. eapply Rle_trans; [exact IH | apply (lower_step (k + n)); lia]. Qed.
Lemma inverse_limit : is_lim_seq (fun n => / INR n) 0.
Proof. apply (is_lim_seq_inv INR p_infty); [apply is_lim_seq_INR | discriminate]. Qed.
Lemma correction_limit l : is_lim_seq (fun n => polynomial l (/ INR n)) (polynomial l 0).
Proof. apply is_lim_seq_continuous; [|apply inverse_limit]. apply continuity_pt_filterlim, polynomial_continuous. Qed.
Lemma cube_limit (g : R) : is_lim_seq cube g -> forall n, (0 < n)%nat -> lower n <= g <= upper n.
Proof.
  intros H n Hn.
  assert (U : is_lim_seq upper g). { replace g with (g * polynomial u 0) by (rewrite first_u; ring). apply is_lim_seq_mult'; [exact H | apply correction_limit]. }
  assert (L : is_lim_seq lower g). { replace g with (g * polynomial d 0) by (rewrite first_d; ring). apply is_lim_seq_mult'; [exact H | apply correction_limit]. }
  split.
  - apply (is_lim_seq_incr_n lower n) in L. apply (is_lim_seq_le (fun _ => lower n) (fun k => lower (k + n)) (Finite (lower n)) (Finite g)); [intros k; apply lower_from; exact Hn | apply is_lim_seq_const | exact L].
  - apply (is_lim_seq_incr_n upper n) in U. apply (is_lim_seq_le (fun k => upper (k + n)) (fun _ => upper n) (Finite g) (Finite (upper n))); [intros k; apply upper_from; exact Hn | exact U | apply is_lim_seq_const].
Qed.
Lemma Gamma_cube g : is_Gamma x g -> is_lim_seq cube (g ^ 3).
Proof.
  intros H. apply (is_lim_seq_ext_loc (fun n => product n ^ 3)).
  - exists 1%nat. intros n Hn. apply product_cube. lia.
  - change (is_lim_seq product g) in H. cbn [pow]. apply is_lim_seq_mult'; [exact H|]. apply is_lim_seq_mult'; [exact H|]. apply is_lim_seq_mult'; [exact H | apply is_lim_seq_const].
Qed.
Lemma Gamma_bounds g : is_Gamma x g -> forall n, (0 < n)%nat -> lower n <= g ^ 3 <= upper n.
Proof. intros H. apply cube_limit, Gamma_cube. exact H. Qed.
Hypothesis d_pos : 0 < polynomial d 1.
Hypothesis u_pos : forall t, 0 <= t <= 1 -> 1 <= polynomial u t.
Lemma Gamma_exists : exists g, 0 < g /\ is_Gamma x g.
Proof.
  assert (P : forall n, (0 < n)%nat -> 0 <= upper n).
  { intros n Hn. unfold upper. pose proof (cube_pos n Hn). assert (1 <= INR n) by (apply (le_INR 1); lia). pose proof (Rinv_0_lt_compat (INR n) ltac:(lra)).
    assert (/ INR n <= 1) by (rewrite <- Rinv_1; apply Rinv_le_contravar; lra). pose proof (u_pos (/ INR n) ltac:(lra)). nra. }
  assert (C : ex_finite_lim_seq (fun k => upper (k + 1))).
  { apply (ex_finite_lim_seq_decr _ 0); [intros k; apply (upper_step (k + 1)); lia | intros k; apply P; lia]. }
  destruct C as [g C]. apply (is_lim_seq_incr_n upper 1) in C.
  assert (L : is_lim_seq cube g).
  { apply (is_lim_seq_ext_loc (fun n => upper n * / polynomial u (/ INR n))).
    - exists 1%nat. intros n Hn. unfold upper. assert (1 <= INR n) by (apply (le_INR 1); lia). pose proof (Rinv_0_lt_compat (INR n) ltac:(lra)).
      assert (/ INR n <= 1) by (rewrite <- Rinv_1; apply Rinv_le_contravar; lra). pose proof (u_pos (/ INR n) ltac:(lra)). field. lra.
    - replace g with (g * / polynomial u 0) by (rewrite first_u; field). apply is_lim_seq_mult'; [exact C|]. apply (is_lim_seq_inv _ (polynomial u 0)); [apply correction_limit |]. rewrite first_u. intros E. injection E. lra. }
  assert (Pg : 0 < g). { pose proof (cube_limit g L 1 ltac:(lia)) as [B _]. unfold lower in B. change (INR 1) with 1 in B. rewrite Rinv_1 in B. pose proof (cube_pos 1 ltac:(lia)). nra. }
  exists (Rpower g (1 / 3)). split; [apply exp_pos|]. change (is_lim_seq product (Rpower g (1 / 3))).
  apply (is_lim_seq_ext_loc (fun n => Rpower (cube n) (1 / 3))).
  - exists 1%nat. intros n Hn. rewrite <- product_cube by lia. assert (Pp : 0 < product n).
    { unfold product. apply Rdiv_lt_0_compat; [|apply rising_pos]. apply Rmult_lt_0_compat; [apply lt_0_INR, lt_O_fact | apply exp_pos]. }
    rewrite <- (Rpower_pow 3) by exact Pp. rewrite Rpower_mult. replace (INR 3 * (1 / 3)) with 1 by (cbn [INR]; lra). apply Rpower_1. exact Pp.
  - apply (is_lim_seq_continuous (fun t => Rpower t (1 / 3))); [|exact L]. unfold Rpower. apply derivable_continuous_pt. exists (exp (1 / 3 * ln g) * (1 / 3 * / g)). apply is_derive_Reals. auto_derive; [exact Pg | field; lra].
Qed.

(** * By computation *)
Fixpoint q_cube (n : nat) : Q * Z :=
  match n with
  | O => (Qred (729 # Pos.of_nat (j ^ 3 * (3 + j) ^ 3)), 1%Z)
  | S m => let (c, t) := q_cube m in
           let t := (t + 1)%Z in
           (Qred (c * (inject_Z (27 * t ^ (3 + Z.of_nat j)) / inject_Z ((t - 1) ^ Z.of_nat j * (3 * t + Z.of_nat j) ^ 3))), t)
  end.
Hypothesis first_cube : Q2R (fst (q_cube 0)) = cube 1.
Lemma q_cube_value n : Q2R (fst (q_cube n)) = cube (S n) /\ snd (q_cube n) = Z.of_nat (S n).
Proof.
  induction n as [|n [IH1 IH2]]; [split; [exact first_cube | reflexivity]|]. cbn [q_cube]. destruct (q_cube n) as [c t]. cbn [fst snd] in *. split; [|lia].
  rewrite (Qeq_eqR _ _ (Qred_correct _)), Q2R_mult, IH1, Q2R_div.
  - rewrite !Q2R_int, !mult_IZR. pose proof (cube_step (S n) ltac:(lia)) as E. cbv zeta in E.
    rewrite IH2. replace (Z.of_nat (S n) + 1)%Z with (Z.of_nat (S (S n))) by lia.
    replace (3 + Z.of_nat j)%Z with (Z.of_nat (3 + j)) by lia. rewrite <- !pow_IZR, minus_IZR, <- INR_IZR_INZ. change 3%Z with (Z.of_nat 3) at 2. rewrite <- pow_IZR, plus_IZR, mult_IZR, <- !INR_IZR_INZ.
    replace (INR 3) with 3 by (cbn [INR]; lra). pose proof (divisor_pos (S n) ltac:(lia)) as P. apply (Rmult_eq_reg_r ((INR (S (S n)) - 1) ^ j * (3 * INR (S (S n)) + INR j) ^ 3)); [|lra]. rewrite E.
    set (w := (INR (S (S n)) - 1) ^ j * (3 * INR (S (S n)) + INR j) ^ 3) in *. field. lra.
  - intros Z0. apply Qeq_eqR in Z0. rewrite Q2R_int, Q2R_0 in Z0. apply eq_IZR in Z0. rewrite IH2 in Z0.
    assert (0 < (Z.of_nat (S n) + 1 - 1) ^ Z.of_nat j * (3 * (Z.of_nat (S n) + 1) + Z.of_nat j) ^ 3)%Z by (apply Z.mul_pos_pos; apply Z.pow_pos_nonneg; lia). lia.
Qed.
End Thirds.

(** * The corrections *)
Definition up1 : list Q := [1; 2 # 3; 1 # 27; -2 # 81; 8 # 729; 0; -256 # 59049; 1 # 4]%Q.
Definition down1 : list Q := [1; 2 # 3; 1 # 27; -2 # 81; 8 # 729; 0; -256 # 59049; -1 # 4]%Q.
Definition up2 : list Q := [1; 5 # 3; 20 # 27; 0; -4 # 729; 20 # 2187; -500 # 59049; 1 # 4]%Q.
Definition down2 : list Q := [1; 5 # 3; 20 # 27; 0; -4 # 729; 20 # 2187; -500 # 59049; -1 # 4]%Q.
Lemma positive_polynomial l t : 0 <= t -> (forall a, In a l -> 0 <= a) -> 0 <= polynomial l t.
Proof.
  intros Ht. induction l as [|a l IH]; intros H; cbn [polynomial]; [lra|]. pose proof (H a (or_introl eq_refl)). assert (0 <= polynomial l t) by (apply IH; intros b Hb; apply H; right; exact Hb). nra.
Qed.
Ltac all_positive := let a := fresh in let H := fresh in intros a H; cbn [In] in H; repeat (destruct H as [<-|H]; [lra|]); destruct H.
Ltac correct t rest n :=
  let m := fresh "m" in let Hm := fresh in
  set (m := t - 2); assert (Hm : 0 <= m) by (unfold m; lra); replace t with (m + 2) by (unfold m; ring);
  apply Rminus_le_0;
  match goal with |- 0 <= ?e => replace e with (polynomial rest m / ((m + 2) ^ 7 * (m + 1) ^ n)); [|] end;
  [apply Rdiv_le_0_compat; [apply positive_polynomial; [exact Hm | all_positive] | apply Rmult_lt_0_compat; apply pow_lt; lra]
  | cbn [real_list map polynomial up1 down1 up2 down2]; unfold Q2R; cbn [Qnum Qden INR Nat.add pow]; field; lra].
Lemma up1_correct t : 2 <= t -> polynomial (real_list up1) (/ t) * (27 * t ^ (3 + 1)) <= polynomial (real_list up1) (/ (t - 1)) * ((t - 1) ^ 1 * (3 * t + INR 1) ^ 3).
Proof.
  intros Ht. correct t [636034708 / 59049; 3658098916 / 59049; 9453782594 / 59049; 4828135484 / 19683; 58370843029 / 236196; 40457288615 / 236196; 6518659553 / 78732; 3256937951 / 118098; 1431388067 / 236196; 187388723 / 236196; 1232861 / 26244] 7%nat.
Qed.
Lemma down1_correct t : 2 <= t -> polynomial (real_list down1) (/ (t - 1)) * ((t - 1) ^ 1 * (3 * t + INR 1) ^ 3) <= polynomial (real_list down1) (/ t) * (27 * t ^ (3 + 1)).
Proof.
  intros Ht. correct t [647454356 / 59049; 3726805220 / 59049; 9636759106 / 59049; 4922822716 / 19683; 59509502357 / 236196; 41226728359 / 236196; 6636945889 / 78732; 3312027103 / 118098; 1453391779 / 236196; 189934387 / 236196; 1247197 / 26244] 7%nat.
Qed.
Lemma up2_correct t : 2 <= t -> polynomial (real_list up2) (/ t) * (27 * t ^ (3 + 2)) <= polynomial (real_list up2) (/ (t - 1)) * ((t - 1) ^ 2 * (3 * t + INR 2) ^ 3).
Proof.
  intros Ht. correct t [941808232 / 59049; 6199958108 / 59049; 6139863160 / 19683; 32648649290 / 59049; 76834682285 / 118098; 14023093483 / 26244; 73909236413 / 236196; 30892274935 / 236196; 3012923675 / 78732; 1764198475 / 236196; 103407877 / 118098; 1226029 / 26244] 7%nat.
Qed.
Lemma down2_correct t : 2 <= t -> polynomial (real_list down2) (/ (t - 1)) * ((t - 1) ^ 2 * (3 * t + INR 2) ^ 3) <= polynomial (real_list down2) (/ t) * (27 * t ^ (3 + 2)).
Proof.
  intros Ht. correct t [967600232 / 59049; 6376534108 / 59049; 6320263160 / 19683; 33629129290 / 59049; 79168642285 / 118098; 14449061483 / 26244; 76126832413 / 236196; 31795914935 / 236196; 3097663675 / 78732; 1811218475 / 236196; 105979877 / 118098; 1254029 / 26244] 7%nat.
Qed.
