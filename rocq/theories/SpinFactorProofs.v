From Coq Require Import String List ZArith Lia Reals Lra Sorted Permutation.
From Verif Require Import Outcome QuantumModel QuantumSpec QuantumProofs SpinFactorModel.
Import ListNotations.
Open Scope R_scope.

Definition Zsum (l : list Z) : Z := fold_right Z.add 0%Z l.

Lemma Rsum_app a b : Rsum (a ++ b) = Rsum a + Rsum b.
Proof. induction a as [|x a IH]; cbn; [unfold Rsum; cbn; lra|]. unfold Rsum in *; cbn in *; rewrite IH; lra. Qed.

Lemma sum_steps n : forall x, Zsum (map (fun c => (c + 1)%Z) (steps n x)) =
  ((Z.of_nat n + 1) * (x + 1 + Z.of_nat n))%Z.
Proof.
  induction n as [|n IH]; intros x; cbn -[Z.of_nat Z.mul Z.add]; [lia|].
  change (Zsum (map (fun c => (c + 1)%Z) (steps n (x + 2)))) in |- * || idtac.
  fold (Zsum (map (fun c => (c + 1)%Z) (steps n (x + 2)))). rewrite IH. nia.
Qed.

Lemma coupling_list_unique a b l : (0 <= a)%Z -> (0 <= b)%Z ->
  coupling_loop (coupling_fuel (Z.abs (a - b)) (a + b)) (a + b) (Z.abs (a - b)) = Ok l ->
  l = steps (Z.to_nat (Z.min a b)) (Z.abs (a - b)).
Proof.
  intros Ha Hb H.
  rewrite (coupling_loop_steps (Z.to_nat (Z.min a b))) in H; [congruence| |unfold coupling_fuel]; lia.
Qed.

(** Dimension count: the coupled multiplets span the product space. *)
Lemma theJ_sum l s : is_spin s ->
  Zsum (map (fun c => (c + 1)%Z) (theJ l s)) = ((2 * Z.of_nat l + 1) * (s + 1))%Z.
Proof.
  unfold is_spin; intros Hs. pose proof (theJ_ok l s Hs) as E. unfold possibleJ in E.
  apply coupling_list_unique in E; [|lia|lia]. rewrite E, sum_steps. nia.
Qed.

Lemma theS_sum i I : is_spin i -> is_spin I ->
  Zsum (map (fun c => (c + 1)%Z) (theS i I)) = ((i + 1) * (I + 1))%Z.
Proof.
  unfold is_spin; intros Hi HI. pose proof (theS_ok i I Hi HI) as E. unfold possibleChannelSpinValues in E.
  apply coupling_list_unique in E; [|lia|lia]. rewrite E, sum_steps. nia.
Qed.

Lemma factor_alt J i I : is_spin i -> is_spin I ->
  statisticalSpinFactor J i I = IZR (J + 1) / (IZR (i + 1) * IZR (I + 1)).
Proof.
  unfold is_spin; intros Hi HI. unfold statisticalSpinFactor, spin_value.
  rewrite !plus_IZR. apply IZR_le in Hi, HI. field. lra.
Qed.

Lemma Rsum_factor i I qs : is_spin i -> is_spin I ->
  Rsum (map (fun q => statisticalSpinFactor (qJ q) i I) qs) =
  IZR (Zsum (map (fun q => (qJ q + 1)%Z) qs)) / (IZR (i + 1) * IZR (I + 1)).
Proof.
  intros Hi HI. assert (Hd : IZR (i + 1) * IZR (I + 1) <> 0).
  { unfold is_spin in *. rewrite <- mult_IZR. apply not_0_IZR. nia. }
  induction qs as [|q qs IH]; cbn.
  - unfold Rsum, Zsum; cbn. unfold Rdiv; ring.
  - unfold Rsum, Zsum in *; cbn in *. rewrite IH, (factor_alt _ _ _ Hi HI), (plus_IZR (qJ q + 1)).
    unfold Rdiv; ring.
Qed.

Lemma Zsum_app a b : Zsum (a ++ b) = (Zsum a + Zsum b)%Z.
Proof. induction a as [|x a IH]; cbn; [reflexivity|]. unfold Zsum in *; cbn in *; rewrite IH; lia. Qed.

Lemma numbers_block_sum l ss : (forall s, In s ss -> is_spin s) ->
  Zsum (map (fun q => (qJ q + 1)%Z) (concat (map (numbers_pure l) ss))) =
  ((2 * Z.of_nat l + 1) * Zsum (map (fun s => (s + 1)%Z) ss))%Z.
Proof.
  induction ss as [|s ss IH]; intros H; cbn -[Z.mul Z.of_nat Z.add]; [unfold Zsum; cbn; lia|].
  rewrite map_app, Zsum_app, IH by (intros x Hx; apply H; right; exact Hx).
  unfold numbers_pure. rewrite map_map. cbn [qJ].
  rewrite (theJ_sum l s) by (apply H; left; reflexivity). unfold Zsum; cbn -[Z.mul Z.of_nat Z.add]. nia.
Qed.

Lemma filter_block l : forall lmax m ss, (m <= l < m + lmax)%nat ->
  filter (fun q => Nat.eqb (ql q) l)
    (concat (map (fun k => concat (map (numbers_pure k) ss)) (seq m lmax))) =
  concat (map (numbers_pure l) ss).
Proof.
  assert (Hblock : forall k ss q, In q (concat (map (numbers_pure k) ss)) -> ql q = k).
  { intros k ss q H. apply in_concat in H. destruct H as (ys & Hys & Hq). apply in_map_iff in Hys.
    destruct Hys as (s & <- & _). unfold numbers_pure in Hq. apply in_map_iff in Hq.
    destruct Hq as (J & <- & _). reflexivity. }
  assert (Hnone : forall (f : qnum -> bool) xs, (forall q, In q xs -> f q = false) -> filter f xs = []).
  { intros f xs; induction xs as [|x xs IH]; intros H; cbn; [reflexivity|].
    rewrite (H x (or_introl eq_refl)). apply IH. intros q Hq; apply H; right; exact Hq. }
  assert (Hall : forall (f : qnum -> bool) xs, (forall q, In q xs -> f q = true) -> filter f xs = xs).
  { intros f xs; induction xs as [|x xs IH]; intros H; cbn; [reflexivity|].
    rewrite (H x (or_introl eq_refl)). f_equal. apply IH. intros q Hq; apply H; right; exact Hq. }
  assert (Happ : forall (f : qnum -> bool) xs ys, filter f (xs ++ ys) = filter f xs ++ filter f ys).
  { intros f xs ys; induction xs as [|x xs IH]; cbn; [reflexivity|]. destruct (f x); rewrite IH; reflexivity. }
  induction lmax as [|n IH]; intros m ss H; [lia|]. cbn [seq map concat].
  rewrite Happ. destruct (Nat.eq_dec m l) as [->|E].
  - rewrite Hall by (intros q Hq; apply Nat.eqb_eq, (Hblock _ _ _ Hq)).
    rewrite Hnone; [apply app_nil_r|].
    intros q Hq. apply in_concat in Hq. destruct Hq as (ys & Hys & Hq). apply in_map_iff in Hys.
    destruct Hys as (k & <- & Hk). apply in_seq in Hk. apply Hblock in Hq. apply Nat.eqb_neq. lia.
  - rewrite Hnone by (intros q Hq; apply Nat.eqb_neq; apply Hblock in Hq; lia).
    apply IH; lia.
Qed.

(** C05 *)
Lemma spin_factor_sum i I lmax l qs : is_spin i -> is_spin I -> (l < lmax)%nat ->
  makeQuantumNumbers i I lmax = Ok qs ->
  Rsum (map (fun q => statisticalSpinFactor (qJ q) i I) (filter (fun q => Nat.eqb (ql q) l) qs))
  = 2 * INR l + 1.
Proof.
  intros Hi HI Hl H. rewrite (makeQuantumNumbers_ok i I lmax Hi HI) in H. injection H as <-.
  rewrite filter_block by lia.
  rewrite Rsum_factor by assumption.
  rewrite numbers_block_sum.
  - rewrite (theS_sum i I Hi HI). unfold is_spin in *.
    rewrite !mult_IZR, !plus_IZR, mult_IZR, <- INR_IZR_INZ.
    apply IZR_le in Hi, HI. field. lra.
  - intros s Hs. apply theS_in in Hs; auto. apply triangle_nonneg in Hs. exact Hs.
Qed.

(** ** The older interface: one J per multiplet *)

(** The distinct J values of an l for a spin 1/2 projectile on a target of spin I. *)
Definition distinctJ (I : Z) (l : nat) : list Z :=
  match possibleJ3 l 1 I with Ok js => js | _ => [] end.


Lemma distinctJ_steps I l : is_spin I ->
  distinctJ I l = steps (Z.to_nat ((2 * Z.of_nat l + I + 1 - Z.abs (Z.abs (2 * Z.of_nat l - I) - 1)) / 2))
                        (Z.abs (Z.abs (2 * Z.of_nat l - I) - 1)).
Proof.
  unfold is_spin; intros HI. unfold distinctJ, possibleJ3.
  set (a := (2 * Z.of_nat l)%Z). set (m := Z.abs (Z.abs (a - I) - 1)).
  rewrite (coupling_loop_steps (Z.to_nat ((a + I + 1 - m) / 2))); [reflexivity| |].
  - assert (E : exists k, (a + I + 1 - m = 2 * k /\ 0 <= k)%Z).
    { unfold m, a. exists (if Z.leb I (2 * Z.of_nat l) then if Z.leb 1 (2 * Z.of_nat l - I) then I + 1 else I
                           else 2 * Z.of_nat l + 1)%Z.
      destruct (Z.leb_spec I (2 * Z.of_nat l)); [destruct (Z.leb_spec 1 (2 * Z.of_nat l - I))|]; lia. }
    destruct E as (k & E & Hk). rewrite E. rewrite (Z.mul_comm 2 k), Z.div_mul by lia. lia.
  - unfold coupling_fuel.
    assert ((a + I + 1 - m) / 2 <= (a + I + 1 - m))%Z.
    { apply Z.div_le_upper_bound; [lia|]. unfold m; lia. }
    assert (0 <= (a + I + 1 - m) / 2)%Z by (apply Z.div_pos; unfold m; lia). lia.
Qed.

Lemma factor_summation_spec I l : is_spin I ->
  statisticalFactorSummation I l = Rsum (map (g_neutron I) (distinctJ I l)).
Proof.
  intros HI. rewrite distinctJ_steps by assumption. unfold is_spin in HI.
  set (a := (2 * Z.of_nat l)%Z). set (m := Z.abs (Z.abs (a - I) - 1)).
  assert (E : exists k, (a + I + 1 - m = 2 * k /\ 0 <= k)%Z).
  { unfold m, a. exists (if Z.leb I (2 * Z.of_nat l) then if Z.leb 1 (2 * Z.of_nat l - I) then I + 1 else I
                         else 2 * Z.of_nat l + 1)%Z.
    destruct (Z.leb_spec I (2 * Z.of_nat l)); [destruct (Z.leb_spec 1 (2 * Z.of_nat l - I))|]; lia. }
  destruct E as (k & E & Hk). rewrite E. rewrite (Z.mul_comm 2 k), Z.div_mul by lia.
  assert (Hs : forall xs, Rsum (map (g_neutron I) xs) = IZR (Zsum (map (fun c => (c + 1)%Z) xs)) / (2 * IZR I + 2)).
  { intros xs; induction xs as [|x xs IH]; unfold Rsum, Zsum in *; cbn [map fold_right].
    - unfold Rdiv; ring.
    - rewrite IH. unfold g_neutron. rewrite !plus_IZR. replace (2 * (IZR I + 1)) with (2 * IZR I + 2) by ring. unfold Rdiv; ring. }
  rewrite Hs, sum_steps. rewrite Z2Nat.id by lia.
  unfold statisticalFactorSummation, spin_value.
  assert (Hm : Rabs (Rabs (IZR I / 2 - INR l) - 0.5) = IZR m / 2).
  { unfold m, a. rewrite INR_IZR_INZ.
    replace (IZR I / 2 - IZR (Z.of_nat l)) with (- (IZR (2 * Z.of_nat l - I) / 2))
      by (rewrite minus_IZR, mult_IZR; field).
    rewrite Rabs_Ropp. unfold Rdiv. rewrite Rabs_mult, (Rabs_right (/ 2)) by lra.
    rewrite <- abs_IZR.
    replace (IZR (Z.abs (2 * Z.of_nat l - I)) * / 2 - 0.5) with (IZR (Z.abs (2 * Z.of_nat l - I) - 1) * / 2)
      by (rewrite minus_IZR; lra).
    rewrite Rabs_mult, (Rabs_right (/ 2)) by lra. rewrite <- abs_IZR. reflexivity. }
  rewrite Hm. clear Hm Hs.
  assert (Ek : IZR k = (2 * INR l + IZR I + 1 - IZR m) / 2).
  { apply (f_equal IZR) in E. unfold a in E. rewrite mult_IZR, minus_IZR, !plus_IZR, mult_IZR, <- INR_IZR_INZ in E. lra. }
  rewrite mult_IZR, !plus_IZR, Ek. apply IZR_le in HI.
  replace 0.5 with (1 / 2) by lra. field. lra.
Qed.

(** The value of 2l+1 - sum g_J in closed form. *)
Lemma distinctJ_in I l J : is_spin I ->
  (In J (distinctJ I l) <-> exists s, triangle 1 I s /\ triangle (2 * Z.of_nat l) s J).
Proof.
  intros HI. destruct (possibleJ3_complete l 1 I ltac:(unfold is_spin; lia) HI ltac:(lia)) as (js & E & _ & H).
  unfold distinctJ; rewrite E; apply H.
Qed.

Lemma Rsum_perm a b : Permutation a b -> Rsum a = Rsum b.
Proof. induction 1; unfold Rsum in *; cbn; try lra; congruence. Qed.

Lemma factor_summation_all I l js : is_spin I -> all_J_of I l js ->
  statisticalFactorSummation I l = Rsum (map (g_neutron I) js).
Proof.
  intros HI [Hnd Hin]. rewrite (factor_summation_spec I l HI). apply Rsum_perm, Permutation_map.
  apply NoDup_Permutation; [|exact Hnd|].
  - rewrite distinctJ_steps by assumption. apply sorted_nodup, steps_sorted.
  - intros J. rewrite Hin. apply distinctJ_in, HI.
Qed.

(** The summation as a quotient of integers. *)
Lemma summation_Z I l : is_spin I ->
  let a := (2 * Z.of_nat l)%Z in
  let m := Z.abs (Z.abs (a - I) - 1) in
  statisticalFactorSummation I l =
  IZR ((a + I + 3 - m) * (a + I + 3 + m)) / IZR (8 * (I + 1)).
Proof.
  intros HI a m. unfold is_spin in HI. unfold statisticalFactorSummation, spin_value.
  assert (Hm : Rabs (Rabs (IZR I / 2 - INR l) - 0.5) = IZR m / 2).
  { unfold m, a. rewrite INR_IZR_INZ.
    replace (IZR I / 2 - IZR (Z.of_nat l)) with (- (IZR (2 * Z.of_nat l - I) / 2))
      by (rewrite minus_IZR, mult_IZR; field).
    rewrite Rabs_Ropp. unfold Rdiv. rewrite Rabs_mult, (Rabs_right (/ 2)) by lra.
    rewrite <- abs_IZR.
    replace (IZR (Z.abs (2 * Z.of_nat l - I)) * / 2 - 0.5) with (IZR (Z.abs (2 * Z.of_nat l - I) - 1) * / 2)
      by (rewrite minus_IZR; lra).
    rewrite Rabs_mult, (Rabs_right (/ 2)) by lra. rewrite <- abs_IZR. reflexivity. }
  rewrite Hm. unfold a. rewrite INR_IZR_INZ.
  rewrite !mult_IZR, minus_IZR, !plus_IZR, mult_IZR. apply IZR_le in HI.
  replace 0.5 with (1 / 2) by lra. field. lra.
Qed.

(** One unit in the fifteenth decimal: the rounding of the literals in the table
    (27/7 is entered as 3.857142857142858, which is not even the nearest such decimal). *)
Definition literal_rounding : R := 1 / 10 ^ 15.

Lemma D_large I l : (7 < I)%Z -> (0 <= l <= 4)%Z ->
  D I l = Ok (IZR l) /\ IZR l + statisticalFactorSummation I (Z.to_nat l) = 2 * IZR l + 1.
Proof.
  intros HI Hl. unfold D. destruct (Z.gtb_spec I 7); [|lia]. split; [reflexivity|].
  rewrite summation_Z by (unfold is_spin; lia). rewrite Z2Nat.id by lia.
  assert (H8 : IZR (8 * (I + 1)) <> 0) by (apply not_0_IZR; lia).
  replace ((2 * l + I + 3 - Z.abs (Z.abs (2 * l - I) - 1)) * (2 * l + I + 3 + Z.abs (Z.abs (2 * l - I) - 1)))%Z
    with ((l + 1) * (8 * (I + 1)))%Z by nia.
  rewrite mult_IZR, plus_IZR. field. exact H8.
Qed.

Lemma at_or_ub_nth {A} (xs : list A) n w d : (n < length xs)%nat -> at_or_ub xs n w = Ok (nth n xs d).
Proof. intros H. unfold at_or_ub. rewrite (nth_error_nth' xs d H). reflexivity. Qed.

Lemma D_small I l : (0 <= I <= 7)%Z -> (0 <= l <= 4)%Z ->
  exists d, D I l = Ok d /\
    Rabs (d - (2 * IZR l + 1 - statisticalFactorSummation I (Z.to_nat l))) <= literal_rounding.
Proof.
  intros HI Hl. rewrite summation_Z by (unfold is_spin; lia).
  rewrite Z2Nat.id by lia. unfold literal_rounding.
  assert (HI' : (I = 0 \/ I = 1 \/ I = 2 \/ I = 3 \/ I = 4 \/ I = 5 \/ I = 6 \/ I = 7)%Z) by lia.
  assert (Hl' : (l = 0 \/ l = 1 \/ l = 2 \/ l = 3 \/ l = 4)%Z) by lia.
  clear HI Hl.
  destruct HI' as [->|[->|[->|[->|[->|[->|[->| ->]]]]]]];
    destruct Hl' as [->|[->|[->|[->| ->]]]];
    (eexists; split; [reflexivity|];
     match goal with |- context [_ + 1 - IZR ?a / IZR ?b] =>
       let a' := eval vm_compute in a in let b' := eval vm_compute in b in
       change (IZR a / IZR b) with (IZR a' / IZR b')
     end;
     apply Rabs_le; lra).
Qed.

(** Outside the tabulated orbital range the lookup returns another row's entry, or reads
    past the end of the table. *)
Lemma D_l5_wrong_row : D 0 6 = Ok 0.75.
Proof. reflexivity. Qed.

Lemma D_l5_ub : is_ub (D 7 5).
Proof. eexists; reflexivity. Qed.

Lemma D_domain I l : (0 <= I)%Z -> (0 <= l <= 4)%Z -> is_ok (D I l).
Proof.
  intros HI Hl. destruct (Z_lt_le_dec 7 I).
  - destruct (D_large I l l0 Hl) as [-> _]. eexists; reflexivity.
  - destruct (D_small I l ltac:(lia) Hl) as (d & -> & _). eexists; reflexivity.
Qed.
