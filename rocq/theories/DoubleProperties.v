(** C63: the quantum number code on doubles does what the model with exact half-integers does. *)
From Coq Require Import String List ZArith Reals Lia.
From Flocq Require Import IEEE754.BinarySingleNaN.
From Verif Require Import Outcome QuantumModel QuantumSpec DoubleModel DoubleSpec DoubleProofs.
Import ListNotations.
Open Scope Z_scope.

(** Given doubles that hold half-integers, and enough iterations, the loops end and their doubles hold,
    in increasing order, the half-integers of the triangle rule. *)
Theorem C63_channel_spins x y i I : holds x i -> holds y I -> 0 <= i <= 2 ^ 50 -> 0 <= I <= 2 ^ 50 ->
  exists n vs zs, (forall fuel, (n <= fuel)%nat -> spins64 fuel x y = Ok vs) /\ Forall2 holds vs zs /\
    Sorted.StronglySorted Z.lt zs /\ forall s, In s zs <-> triangle i I s.
Proof. exact (spins_64 x y i I). Qed.
Theorem C63_total_J l y s : holds y s -> Z.of_nat l <= 2 ^ 49 -> 0 <= s <= 2 ^ 51 ->
  exists n vs zs, (forall fuel, (n <= fuel)%nat -> J64 fuel l y = Ok vs) /\ Forall2 holds vs zs /\
    Sorted.StronglySorted Z.lt zs /\ forall J, In J zs <-> triangle (2 * Z.of_nat l) s J.
Proof. exact (J_64 l y s). Qed.
(** The J values of a pair are those of the exact model (C03). *)
Theorem C63_total_J_pair l x y i I : holds x i -> holds y I -> Z.of_nat l <= 2 ^ 49 -> 0 <= i <= 2 ^ 50 -> 0 <= I <= 2 ^ 50 ->
  exists n vs zs, (forall fuel, (n <= fuel)%nat -> J3_64 fuel l x y = Ok vs) /\ Forall2 holds vs zs /\ possibleJ3 l i I = Ok zs.
Proof. exact (J3_64_same l x y i I). Qed.
(** The quantum numbers of a pair *)
Theorem C63_numbers x y i I lmax : holds x i -> holds y I -> 0 <= i <= 2 ^ 50 -> 0 <= I <= 2 ^ 50 -> Z.of_nat lmax <= 2 ^ 49 ->
  exists n zs, (forall fuel, (n <= fuel)%nat -> exists vs, makeQuantumNumbers64 fuel x y lmax = Ok vs /\ Forall2 holds_number vs zs) /\
    NoDup zs /\ forall q, In q zs <-> spec_number i I lmax q.
Proof. exact (numbers_64 x y i I lmax). Qed.
(** Their retrieval *)
Theorem C63_retrieve l j z av av' : holds j z -> Forall2 holds_number av av' ->
  same_outcome (fun p p' => holds_number (fst p) (fst p') /\ Forall2 holds_number (snd p) (snd p'))
    (retrieveQuantumNumber64 l j av) (retrieveQuantumNumber l z av').
Proof. exact (retrieve_same l j z av av'). Qed.
(** Their text *)
Theorem C63_text q n : holds_number q n -> - 2 ^ 31 < qs n < 2 ^ 31 -> - 2 ^ 31 < qJ n < 2 ^ 31 -> toString64 q = Ok (toString n).
Proof. exact (number_text q n). Qed.
(** Far above the bound the loop does not end: 2 and 2^53 *)
Theorem C63_unbounded_refuted : exists x y, holds x (2 * 2) /\ holds y (2 * 2 ^ 53) /\ forall fuel, spins64 fuel x y = Diverge.
Proof. exact endless_case. Qed.
Print Assumptions C63_channel_spins.
Print Assumptions C63_total_J.
Print Assumptions C63_total_J_pair.
Print Assumptions C63_numbers.
Print Assumptions C63_retrieve.
Print Assumptions C63_text.
Print Assumptions C63_unbounded_refuted.

(** A neutron on a target of spin 5/2, and J = -2 *)
Example C63_case : exists x y j, holds x 1 /\ holds y 5 /\ holds j (- 4) /\
  (exists q rest, match makeQuantumNumbers64 20 x y 2 with Ok av => retrieveQuantumNumber64 1 j av = Ok (q, rest) /\ toString64 q = Ok "{1,2,2-}"%string | _ => False end).
Proof. exact double_case. Qed.
