(** The statistical factors of the signed J of one l value add up to at most 2l+1, when every
    J is one that the spins couple to and a J that appears with both signs couples with both
    channel spins. *)
From Coq Require Import List ZArith Reals Lra Lia Permutation Bool.
From Verif Require Import Outcome QuantumSpec ListFacts BreitWignerSystemProofs ReichMooreModel ReichMooreSpec.
Import ListNotations.
Open Scope R_scope.

(** J couples from l and the channel spin s = I - 1/2 (below) or I + 1/2 (above) *)
Definition below (I : Z) (l : nat) (J : Z) : Prop := (1 <= I)%Z /\ triangle (2 * Z.of_nat l) (I - 1) J.
Definition above (I : Z) (l : nat) (J : Z) : Prop := triangle (2 * Z.of_nat l) (I + 1) J.
Definition admissible (I : Z) (l : nat) (js : list Z) : Prop :=
  NoDup js /\ (forall j, In j js -> below I l (Z.abs j) \/ above I l (Z.abs j)) /\
  (forall j, In j js -> In (- j)%Z js -> j <> 0%Z -> below I l (Z.abs j) /\ above I l (Z.abs j)).

Lemma Rsum_incl {A} (F : A -> R) (m : list A) : (forall x, In x m -> 0 <= F x) -> forall l, NoDup l -> incl l m ->
  Rsum (map F l) <= Rsum (map F m).
Proof.
  intros HF l. revert m HF. induction l as [|x l IH]; intros m HF Hnd Hin.
  - cbn [map]. rewrite Rsum_nil. apply Rsum_map_nonneg, HF.
  - destruct (in_split x m (Hin x (or_introl eq_refl))) as (m1 & m2 & ->).
    cbn [map]. rewrite Rsum_cons. rewrite (Rsum_perm (map F (m1 ++ x :: m2)) (map F (x :: m1 ++ m2))).
    2:{ apply Permutation_map, Permutation_sym, Permutation_middle. }
    cbn [map]. rewrite Rsum_cons. apply Rplus_le_compat_l. inversion Hnd as [|? ? Hx Hnd']; subst.
    apply IH; [|exact Hnd'|].
    + intros y Hy. apply HF. apply in_app_iff in Hy. apply in_app_iff. cbn; tauto.
    + intros y Hy. specialize (Hin y (or_intror Hy)). apply in_app_iff in Hin. apply in_app_iff.
      destruct Hin as [|[<-|]]; auto. contradiction.
Qed.

Definition Js (a b : Z) : list Z := map (fun i => (Z.abs (a - b) + 2 * Z.of_nat i)%Z) (seq 0 (S (Z.to_nat (Z.min a b)))).
Lemma Js_In a b J : (0 <= a)%Z -> (0 <= b)%Z -> triangle a b J -> In J (Js a b).
Proof.
  intros Ha Hb ((H1 & H2) & (q & Hq)). apply in_map_iff. exists (Z.to_nat ((J - Z.abs (a - b)) / 2)).
  assert (exists p, J = Z.abs (a - b) + 2 * p)%Z as (p & Hp).
  { destruct (Z.abs_spec (a - b)) as [[_ ->]|[_ ->]]; [exists (q - a)%Z | exists (q - b)%Z]; lia. }
  replace ((J - Z.abs (a - b)) / 2)%Z with p by (rewrite Hp, Z.add_simpl_l, Z.mul_comm, Z.div_mul; lia).
  split; [lia|]. apply in_seq. split; [lia|]. lia.
Qed.
Lemma arithmetic (d : Z) n : Rsum (map (fun i => IZR (d + 2 * Z.of_nat i) + 1) (seq 0 n)) = INR n * (IZR d + INR n).
Proof.
  induction n as [|n IH]; [cbn [seq map]; rewrite Rsum_nil; cbn; ring|].
  rewrite seq_S, map_app, Rsum_app, IH. cbn [map plus]. rewrite Rsum_cons, Rsum_nil.
  rewrite plus_IZR, mult_IZR, <- INR_IZR_INZ, S_INR. ring.
Qed.
Lemma Js_sum a b : (0 <= a)%Z -> (0 <= b)%Z -> Rsum (map (fun J => IZR J + 1) (Js a b)) = (IZR a + 1) * (IZR b + 1).
Proof.
  intros Ha Hb. unfold Js. rewrite map_map, arithmetic. rewrite S_INR, INR_IZR_INZ, Z2Nat.id by lia.
  destruct (Z.le_gt_cases a b).
  - rewrite Z.min_l, Z.abs_neq by lia. rewrite opp_IZR, minus_IZR. ring.
  - rewrite Z.min_r, Z.abs_eq by lia. rewrite minus_IZR. ring.
Qed.

Definition triangleb (a b c : Z) : bool := ((Z.abs (a - b) <=? c) && (c <=? a + b))%Z && Z.even (a + b + c).
Lemma triangleb_spec a b c : triangleb a b c = true <-> triangle a b c.
Proof.
  unfold triangleb, triangle. rewrite !andb_true_iff, !Z.leb_le, Z.even_spec. tauto.
Qed.

Lemma NoDup_abs js : NoDup js -> (forall j, In j js -> In (- j)%Z js -> j = 0%Z) -> NoDup (map Z.abs js).
Proof.
  induction js as [|j js IH]; intros Hnd H; [constructor|]. inversion Hnd as [|? ? Hj Hnd']; subst. cbn [map]. constructor.
  - rewrite in_map_iff. intros (i & Hi & Hin). assert (i = j \/ i = - j)%Z as [->| ->] by lia; [contradiction|].
    assert (j = 0)%Z as -> by (apply H; [left; reflexivity | right; exact Hin]). exact (Hj Hin).
  - apply IH; [exact Hnd'|]. intros i Hi Hi'. apply H; right; assumption.
Qed.

Theorem admissible_weights I l js : is_spin I -> admissible I l js ->
  Rsum (map (fun j => g_neutron I (Z.abs j)) js) <= 2 * INR l + 1.
Proof.
  intros HI (Hnd & Hc & Hb). unfold is_spin in HI.
  set (lo := fun j => (1 <=? I)%Z && triangleb (2 * Z.of_nat l) (I - 1) (Z.abs j)).
  set (hi := fun j => triangleb (2 * Z.of_nat l) (I + 1) (Z.abs j)).
  set (low := fun j => lo j && (negb (hi j) || (j <? 0)%Z)).
  assert (Hlo : forall j, lo j = true <-> below I l (Z.abs j)).
  { intros j. unfold lo, below. rewrite andb_true_iff, Z.leb_le, triangleb_spec. tauto. }
  assert (Hhi : forall j, hi j = true <-> above I l (Z.abs j)).
  { intros j. unfold hi, above. apply triangleb_spec. }
  assert (Hpart : Rsum (map (fun j => IZR (Z.abs j) + 1) js) =
    Rsum (map (fun j => IZR (Z.abs j) + 1) (filter low js)) + Rsum (map (fun j => IZR (Z.abs j) + 1) (filter (fun j => negb (low j)) js))).
  { clear. induction js as [|j js IH]; [cbn [filter map]; rewrite !Rsum_nil; lra|]. cbn [filter map]. rewrite Rsum_cons, IH.
    destruct (low j); cbn [negb map]; rewrite Rsum_cons; ring. }
  assert (Hsub : forall b (p : Z -> bool), (0 <= b)%Z -> (forall j, In j js -> p j = true -> triangle (2 * Z.of_nat l) b (Z.abs j)) ->
    (forall j, In j js -> In (- j)%Z js -> p j = true -> p (- j)%Z = true -> j = 0%Z) ->
    Rsum (map (fun j => IZR (Z.abs j) + 1) (filter p js)) <= (2 * INR l + 1) * (IZR b + 1)).
  { intros b p Hb0 Hp Hu. rewrite <- (map_map Z.abs (fun J => IZR J + 1)).
    replace (2 * INR l + 1) with (IZR (2 * Z.of_nat l) + 1) by (rewrite mult_IZR, <- INR_IZR_INZ; ring).
    rewrite <- Js_sum by lia. apply Rsum_incl.
    - intros J HJ. apply in_map_iff in HJ as (i & <- & _).
      assert (0 <= Z.abs (2 * Z.of_nat l - b) + 2 * Z.of_nat i)%Z as Hz by lia. apply IZR_le in Hz. lra.
    - apply NoDup_abs; [apply NoDup_filter; exact Hnd|]. intros j Hj Hj'. apply filter_In in Hj as [Hj Hpj].
      apply filter_In in Hj' as [Hj' Hpj']. apply Hu; assumption.
    - intros J HJ. apply in_map_iff in HJ as (j & <- & Hj). apply filter_In in Hj as [Hj Hpj].
      apply Js_In; [lia | exact Hb0 | apply Hp; assumption]. }
  assert (Hl : Rsum (map (fun j => IZR (Z.abs j) + 1) (filter low js)) <= (2 * INR l + 1) * IZR I).
  { destruct (Z_le_dec 1 I) as [H1|H1].
    - replace (IZR I) with (IZR (I - 1) + 1) by (rewrite minus_IZR; lra). apply Hsub; [lia|..].
      + intros j Hj Hp. unfold low in Hp. apply andb_true_iff in Hp as [Hp _]. apply Hlo in Hp. apply Hp.
      + intros j Hj Hj' Hp Hp'. destruct (Z.eq_dec j 0) as [|Hz]; [assumption|]. exfalso.
        destruct (Hb j Hj Hj' Hz) as [_ Ha]. apply Hhi in Ha. unfold low in Hp, Hp'.
        assert (hi (- j)%Z = true) as Ha' by (unfold hi in *; rewrite Z.abs_opp; exact Ha).
        rewrite Ha in Hp. rewrite Ha' in Hp'. apply andb_true_iff in Hp as [_ Hp], Hp' as [_ Hp'].
        cbn in Hp, Hp'. apply Z.ltb_lt in Hp, Hp'. lia.
    - assert (I = 0)%Z as -> by lia. rewrite Rmult_0_r.
      assert (filter low js = []) as ->; [|cbn [map]; rewrite Rsum_nil; lra].
      clear. induction js as [|j js IH]; [reflexivity|]. cbn [filter]. unfold low at 1, lo at 1. cbn. exact IH. }
  assert (Hh : Rsum (map (fun j => IZR (Z.abs j) + 1) (filter (fun j => negb (low j)) js)) <= (2 * INR l + 1) * (IZR (I + 1) + 1)).
  { apply Hsub; [lia|..].
    - intros j Hj Hp. apply negb_true_iff in Hp. unfold low in Hp. apply andb_false_iff in Hp as [Hp|Hp].
      + destruct (Hc j Hj) as [Hx|Hx]; [apply Hlo in Hx; congruence | exact Hx].
      + apply orb_false_iff in Hp as [Hp _]. apply negb_false_iff in Hp. apply Hhi in Hp. exact Hp.
    - intros j Hj Hj' Hp Hp'. destruct (Z.eq_dec j 0) as [|Hz]; [assumption|]. exfalso.
      destruct (Hb j Hj Hj' Hz) as [Hx Ha]. apply Hlo in Hx. apply Hhi in Ha.
      assert (hi (- j)%Z = true) as Ha' by (unfold hi in *; rewrite Z.abs_opp; exact Ha).
      assert (lo (- j)%Z = true) as Hx' by (unfold lo in *; rewrite Z.abs_opp; exact Hx).
      unfold low in Hp, Hp'. rewrite Hx, Ha in Hp. rewrite Hx', Ha' in Hp'. cbn in Hp, Hp'.
      apply negb_true_iff in Hp, Hp'. apply Z.ltb_ge in Hp, Hp'. lia. }
  rewrite plus_IZR in Hh. apply IZR_le in HI.
  assert (Hs : Rsum (map (fun j => g_neutron I (Z.abs j)) js) = / (2 * (IZR I + 1)) * Rsum (map (fun j => IZR (Z.abs j) + 1) js)).
  { rewrite <- Rsum_scale. apply Rsum_ext. intros j _. unfold g_neutron. field. lra. }
  rewrite Hs, Hpart. apply Rmult_le_reg_l with (2 * (IZR I + 1)); [lra|].
  rewrite <- Rmult_assoc, Rinv_r by lra. lra.
Qed.
