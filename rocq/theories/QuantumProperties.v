(** Quantum numbers, identifiers and statistical factors: the claims C01-C07 and C41. *)
From Coq Require Import String Ascii List ZArith Lia Reals Lra Sorted Permutation.
From Verif Require Import Outcome QuantumModel QuantumSpec QuantumProofs QuantumIdProofs
  SpinFactorModel SpinFactorProofs.
Import ListNotations.
Open Scope Z_scope.

(** C01: possibleChannelSpinValues lists exactly the coupled spins, in increasing order. *)
Theorem C01_channel_spins i I : is_spin i -> is_spin I -> exists l,
  possibleChannelSpinValues i I = Ok l /\
  StronglySorted Z.lt l /\ forall s, In s l <-> triangle i I s.
Proof. exact (channel_spins_spec i I). Qed.
Print Assumptions C01_channel_spins.

Example C01_case : possibleChannelSpinValues 1 5 = Ok [4; 6].
Proof. reflexivity. Qed.
Example C01_case' : possibleChannelSpinValues 3 4 = Ok [1; 3; 5; 7].
Proof. reflexivity. Qed.

(** C02 *)
Theorem C02_total_J l s : is_spin s -> exists js,
  possibleJ l s = Ok js /\
  StronglySorted Z.lt js /\ forall J, In J js <-> triangle (2 * Z.of_nat l) s J.
Proof. exact (possibleJ_spec l s). Qed.
Print Assumptions C02_total_J.

Example C02_case : possibleJ 2 3 = Ok [1; 3; 5; 7].
Proof. reflexivity. Qed.

(** C03, the part that holds: a spin 0 or spin 1/2 projectile on any target. *)
Theorem C03_total_J_pair_partial l i I : is_spin i -> is_spin I -> i <= 1 -> exists js,
  possibleJ3 l i I = Ok js /\ StronglySorted Z.lt js /\
  forall J, In J js <-> exists s, triangle i I s /\ triangle (2 * Z.of_nat l) s J.
Proof. exact (possibleJ3_complete l i I). Qed.
Print Assumptions C03_total_J_pair_partial.

(** For every spin: nothing wrong is listed. *)
Theorem C03_total_J_pair_sound_partial l i I : is_spin i -> is_spin I -> exists js,
  possibleJ3 l i I = Ok js /\
  forall J, In J js -> exists s, triangle i I s /\ triangle (2 * Z.of_nat l) s J.
Proof. exact (possibleJ3_sound l i I). Qed.
Print Assumptions C03_total_J_pair_sound_partial.

(** Refuted in general: l = 1, i = 1, I = 1 misses J = 0. *)
Theorem C03_total_J_pair_refuted :
  exists l i I js J, is_spin i /\ is_spin I /\ possibleJ3 l i I = Ok js /\
    (exists s, triangle i I s /\ triangle (2 * Z.of_nat l) s J) /\ ~ In J js.
Proof. exact possibleJ3_incomplete. Qed.
Print Assumptions C03_total_J_pair_refuted.

Example C03_case : possibleJ3 1 1 5 = Ok [2; 4; 6; 8].
Proof. reflexivity. Qed.

(** C04 *)
Theorem C04_enumeration i I lmax : is_spin i -> is_spin I ->
  exists qs, makeQuantumNumbers i I lmax = Ok qs /\ NoDup qs /\
             forall q, In q qs <-> spec_number i I lmax q.
Proof. exact (makeQuantumNumbers_spec i I lmax). Qed.
Print Assumptions C04_enumeration.

Example C04_case : makeQuantumNumbers 1 1 2 =
  Ok [ mkQ 0 0 0 1; mkQ 0 2 2 1; mkQ 1 0 2 (-1); mkQ 1 2 0 (-1); mkQ 1 2 2 (-1); mkQ 1 2 4 (-1) ].
Proof. reflexivity. Qed.

(** C05 *)
Theorem C05_spin_factor_sum i I lmax l qs : is_spin i -> is_spin I -> (l < lmax)%nat ->
  makeQuantumNumbers i I lmax = Ok qs ->
  Rsum (map (fun q => statisticalSpinFactor (qJ q) i I) (filter (fun q => Nat.eqb (ql q) l) qs))
  = (2 * INR l + 1)%R.
Proof. exact (spin_factor_sum i I lmax l qs). Qed.
Print Assumptions C05_spin_factor_sum.

Example C05_case :
  (statisticalSpinFactor 2 1 1 + statisticalSpinFactor 0 1 1 + statisticalSpinFactor 2 1 1 +
   statisticalSpinFactor 4 1 1 = 3)%R.
Proof. unfold statisticalSpinFactor, spin_value; lra. Qed.

(** C06: one call. *)
Theorem C06_retrieve_one l j av q left :
  retrieveQuantumNumber l j av = Ok (q, left) -> retrieved l j av q left.
Proof. exact (retrieve_ok l j av q left). Qed.
Print Assumptions C06_retrieve_one.

Theorem C06_retrieve_throws l j av :
  throws (retrieveQuantumNumber l j av) <-> forall q, In q av -> ~ (ql q = l /\ qJ q = Z.abs j).
Proof. exact (retrieve_throws l j av). Qed.
Print Assumptions C06_retrieve_throws.

(** No undefined behaviour and no non-termination. *)
Theorem C06_retrieve_cases l j av :
  (exists q left, retrieveQuantumNumber l j av = Ok (q, left)) \/ throws (retrieveQuantumNumber l j av).
Proof. exact (retrieve_cases l j av). Qed.
Print Assumptions C06_retrieve_cases.

(** Any sequence of calls on one list. *)
Theorem C06_retrieve_sequence reqs av got left : NoDup av -> retrieveAll reqs av = Ok (got, left) ->
  NoDup got /\ (forall q, In q got -> In q av /\ ~ In q left) /\
  (forall q, In q av -> In q got \/ In q left).
Proof. exact (retrieveAll_distinct reqs av got left). Qed.
Print Assumptions C06_retrieve_sequence.

Theorem C06_retrieve_sequence_matches reqs av got left : retrieveAll reqs av = Ok (got, left) ->
  Permutation av (got ++ left) /\
  Forall2 (fun r q => ql q = fst r /\ qJ q = Z.abs (snd r)) reqs got.
Proof. exact (retrieveAll_spec reqs av got left). Qed.
Print Assumptions C06_retrieve_sequence_matches.

Theorem C06_retrieve_sign I lmax l j av q left : is_spin I -> (l < lmax)%nat ->
  makeQuantumNumbers 1 I lmax = Ok av ->
  retrieveQuantumNumber l j av = Ok (q, left) ->
  triangle (2 * Z.of_nat l) (Z.abs (1 - I)) (Z.abs j) -> triangle (2 * Z.of_nat l) (1 + I) (Z.abs j) ->
  qs q = if j <? 0 then Z.abs (1 - I) else 1 + I.
Proof. exact (retrieve_sign I lmax l j av q left). Qed.
Print Assumptions C06_retrieve_sign.

(** l = 1 on a target of spin 1/2: the two sets with J = 1 are told apart by the sign, and a
    third request for it throws. *)
Example C06_case : exists av, makeQuantumNumbers 1 1 2 = Ok av /\
  (exists left, retrieveAll [(1%nat, -2); (1%nat, 2)] av = Ok ([mkQ 1 0 2 (-1); mkQ 1 2 2 (-1)], left)) /\
  throws (retrieveAll [(1%nat, -2); (1%nat, 2); (1%nat, 2)] av).
Proof. eexists; repeat split; eexists; reflexivity. Qed.

(** C07 *)
Theorem C07_channel_ids a b p q : no_brace a -> no_brace b -> valid_qnum p -> valid_qnum q ->
  makeChannelID a p = makeChannelID b q -> a = b /\ p = q.
Proof. exact (channelID_inj a b p q). Qed.
Print Assumptions C07_channel_ids.

Theorem C07_quantum_number_text p q : valid_qnum p -> valid_qnum q -> toString p = toString q -> p = q.
Proof. exact (toString_inj p q). Qed.
Print Assumptions C07_quantum_number_text.

Theorem C07_reaction_ids a b c d p q u v :
  no_brace a -> no_brace b -> no_brace c -> no_brace d ->
  valid_qnum p -> valid_qnum q -> valid_qnum u -> valid_qnum v ->
  reactionChannelID (makeChannelID a p) (makeChannelID b q) =
  reactionChannelID (makeChannelID c u) (makeChannelID d v) ->
  (a = c /\ p = u) /\ (b = d /\ q = v).
Proof. exact (reactionChannelID_inj a b c d p q u v). Qed.
Print Assumptions C07_reaction_ids.

(** The restriction to values that are not negative is needed: -1/2 prints as 1/2. *)
Theorem C07_negative_collision : toHalfIntegerString (-1) = toHalfIntegerString 1.
Proof. exact toHalfIntegerString_negative_collision. Qed.
Print Assumptions C07_negative_collision.

Example C07_case : makeChannelID "n,Fe56" (mkQ 1 1 3 (-1)) = "n,Fe56{1,1/2,3/2-}"%string.
Proof. reflexivity. Qed.
Example C07_case' : no_brace "n,Fe56" /\ valid_qnum (mkQ 1 1 3 (-1)).
Proof.
  split; [cbn; repeat split; discriminate|]. unfold valid_qnum; cbn. repeat split; [lia|lia|right; reflexivity].
Qed.

(** C41 *)
Theorem C41_factor_summation I l js : is_spin I -> all_J_of I l js ->
  statisticalFactorSummation I l = Rsum (map (g_neutron I) js).
Proof. exact (factor_summation_all I l js). Qed.
Print Assumptions C41_factor_summation.

Theorem C41_D_large I l : 7 < I -> 0 <= l <= 4 ->
  D I l = Ok (IZR l) /\ (IZR l + statisticalFactorSummation I (Z.to_nat l) = 2 * IZR l + 1)%R.
Proof. exact (D_large I l). Qed.
Print Assumptions C41_D_large.

Theorem C41_D_table I l : 0 <= I <= 7 -> 0 <= l <= 4 ->
  exists d, D I l = Ok d /\
    (Rabs (d - (2 * IZR l + 1 - statisticalFactorSummation I (Z.to_nat l))) <= literal_rounding)%R.
Proof. exact (D_small I l). Qed.
Print Assumptions C41_D_table.

Theorem C41_D_outside : D 0 6 = Ok 0.75%R /\ is_ub (D 7 5).
Proof. exact (conj D_l5_wrong_row D_l5_ub). Qed.
Print Assumptions C41_D_outside.

Example C41_case : all_J_of 1 1 [0; 2; 4] /\ statisticalFactorSummation 1 1 = 2.25%R.
Proof.
  split.
  - split.
    + repeat constructor; cbn; lia.
    + intros J. change [0; 2; 4] with (distinctJ 1 1). apply distinctJ_in. unfold is_spin; lia.
  - rewrite summation_Z by (unfold is_spin; lia). cbn. lra.
Qed.
