(** When the three argument version of the total angular momenta is complete. *)
From Coq Require Import List ZArith Lia Sorted.
From Verif Require Import Outcome QuantumModel QuantumSpec QuantumProofs.
Import ListNotations.
Open Scope Z_scope.

Definition reachable (l : nat) (i I J : Z) : Prop := exists s, triangle i I s /\ triangle (2 * Z.of_nat l) s J.
Lemma reach_below (l : nat) i I : is_spin i -> is_spin I -> Z.abs (2 * Z.of_nat l - I) + 1 < i -> (0 < l)%nat -> 0 < I ->
  reachable l i I (i - Z.abs (2 * Z.of_nat l - I) - 2).
Proof.
  unfold is_spin, reachable. intros Hi HI H Hl HI'. set (a := 2 * Z.of_nat l) in *. set (J := i - Z.abs (a - I) - 2).
  exists (Z.max (Z.abs (i - I)) (Z.abs (a - J))).
  assert (K : exists k, J = i + I + 2 * k).
  { unfold J, a. destruct (Z.abs_spec (2 * Z.of_nat l - I)) as [[_ ->]|[_ ->]]; [exists (- Z.of_nat l - 1)|exists (Z.of_nat l - I - 1)]; lia. }
  destruct K as [k Hk].
  assert (Hp1 : exists p, Z.abs (i - I) = i + I + 2 * p).
  { destruct (Z.abs_spec (i - I)) as [[_ ->]|[_ ->]]; [exists (- I)|exists (- i)]; lia. }
  assert (Hp2 : exists p, Z.abs (a - J) = i + I + 2 * p).
  { unfold a. destruct (Z.abs_spec (2 * Z.of_nat l - J)) as [[_ ->]|[_ ->]];
    [exists (Z.of_nat l - k - i - I)|exists (k - Z.of_nat l)]; lia. }
  destruct Hp1 as [p1 Hp1], Hp2 as [p2 Hp2].
  unfold triangle. split; split.
  - lia.
  - destruct (Z.max_spec (Z.abs (i - I)) (Z.abs (a - J))) as [[_ ->]|[_ ->]];
    [exists (i + I + p2)|exists (i + I + p1)]; lia.
  - lia.
  - destruct (Z.max_spec (Z.abs (i - I)) (Z.abs (a - J))) as [[_ ->]|[_ ->]];
    [exists (Z.of_nat l + i + I + k + p2)|exists (Z.of_nat l + i + I + k + p1)]; unfold a in *; lia.
Qed.
(** What is listed: the reachable values from the minimum of the code on *)
Theorem triple_values l i I : is_spin i -> is_spin I -> exists js, possibleJ3 l i I = Ok js /\ StronglySorted Z.lt js /\
  forall J, In J js <-> reachable l i I J /\ Z.abs (Z.abs (2 * Z.of_nat l - I) - i) <= J.
Proof.
  intros Hi HI. destruct (possibleJ3_list l i I Hi HI) as (js & E & Hs & Hin). destruct (possibleJ3_sound l i I Hi HI) as (js' & E' & Hsound).
  assert (js' = js) by congruence. subst js'. exists js. split; [exact E|]. split; [exact Hs|]. intros J. split.
  - intros HJ. split; [exact (Hsound J HJ) | apply Hin in HJ; lia].
  - intros [(s & [Hs1 [k1 Hk1]] & [Hs2 [k2 Hk2]]) L]. apply Hin. split; [lia|]. exists (k1 + k2 - s - Z.of_nat l); lia.
Qed.
Theorem triple_complete l i I js : is_spin i -> is_spin I -> possibleJ3 l i I = Ok js ->
  ((forall J, In J js <-> reachable l i I J) <-> i <= Z.abs (2 * Z.of_nat l - I) + 1 \/ l = 0%nat \/ I = 0).
Proof.
  intros Hi HI E. destruct (triple_values l i I Hi HI) as (js' & E' & _ & V). assert (js' = js) by congruence. subst js'. split.
  - intros C. destruct (Z_le_gt_dec i (Z.abs (2 * Z.of_nat l - I) + 1)) as [L|L]; [left; exact L|]. right.
    destruct (Nat.eq_dec l 0) as [->|Nl]; [left; reflexivity|]. destruct (Z.eq_dec I 0) as [->|NI]; [right; reflexivity|]. exfalso.
    pose proof (reach_below l i I Hi HI ltac:(lia) ltac:(lia) ltac:(unfold is_spin in HI; lia)) as R. apply C, V in R. lia.
  - intros H J. rewrite V. split; [tauto|]. intros R. split; [exact R|]. destruct R as (s & [Hs1 [k1 Hk1]] & [Hs2 [k2 Hk2]]). unfold is_spin in *.
    destruct H as [H|[H|H]]; subst; lia.
Qed.
