(** Injectivity of the identifiers. *)
From Coq Require Import String Ascii Bool DecimalString DecimalZ DecimalPos Decimal List ZArith Lia.
From Verif Require Import Outcome QuantumModel QuantumSpec.
Import ListNotations.
Open Scope Z_scope.

Lemma to_int_nonnil z : Z.to_int z <> Pos Nil /\ Z.to_int z <> Neg Nil.
Proof.
  destruct z as [|p|p]; cbn; split; try discriminate;
  intros H; injection H; apply DecimalPos.Unsigned.to_uint_nonnil.
Qed.

Lemma to_string_inj a b : to_string a = to_string b -> a = b.
Proof.
  unfold to_string; intros H.
  destruct (to_int_nonnil a) as [Ha1 Ha2], (to_int_nonnil b) as [Hb1 Hb2].
  pose proof (NilZero.isi _ Ha1 Ha2) as Ea. pose proof (NilZero.isi _ Hb1 Hb2) as Eb.
  rewrite H in Ea. rewrite Ea in Eb. injection Eb as E. apply to_int_inj; auto.
Qed.

Definition digit (c : ascii) : Prop :=
  (c = "0" \/ c = "1" \/ c = "2" \/ c = "3" \/ c = "4" \/
   c = "5" \/ c = "6" \/ c = "7" \/ c = "8" \/ c = "9")%char.

Fixpoint all_digits (s : string) : Prop :=
  match s with EmptyString => True | String c r => digit c /\ all_digits r end.

Lemma digits_uint u : all_digits (NilEmpty.string_of_uint u).
Proof. induction u; cbn; unfold digit; auto 20. Qed.

Lemma digits_to_string z : 0 <= z -> all_digits (to_string z).
Proof.
  intros Hz. unfold to_string. destruct z as [|p|p]; try lia; cbn -[NilZero.string_of_uint].
  - cbn; unfold digit; auto.
  - pose proof (digits_uint (Pos.to_uint p)) as H. unfold NilZero.string_of_uint.
    destruct (Pos.to_uint p) eqn:E; try exact H. cbn; unfold digit; auto.
Qed.

(** A run of digits ends where the first other character is. *)
Lemma digits_split a b c d r s :
  all_digits a -> all_digits b -> ~ digit c -> ~ digit d ->
  (a ++ String c r = b ++ String d s)%string -> a = b /\ c = d /\ r = s.
Proof.
  revert b. induction a as [|x a IH]; intros [|y b] Ha Hb Hc Hd H; cbn in *.
  - injection H as -> ->. auto.
  - injection H as -> _. destruct Hb; contradiction.
  - injection H as <- _. destruct Ha; contradiction.
  - injection H as -> H. destruct Ha as [_ Ha], Hb as [_ Hb].
    destruct (IH b Ha Hb Hc Hd H) as (-> & -> & ->). auto.
Qed.

Ltac not_digit := unfold digit; let H := fresh in intros H; repeat (destruct H as [H|H]); discriminate.

Lemma append_assoc (a b c : string) : ((a ++ b) ++ c = a ++ (b ++ c))%string.
Proof. induction a as [|x a IH]; cbn; [reflexivity|rewrite IH; reflexivity]. Qed.

Lemma append_inv_head (a b c : string) : (a ++ b = a ++ c)%string -> b = c.
Proof. induction a as [|x a IH]; cbn; intros H; [exact H|injection H as H; auto]. Qed.

Lemma half_shape a : 0 <= a -> exists d,
  all_digits d /\
  ((Z.rem a 2 = 0 /\ toHalfIntegerString a = d /\ d = to_string (a / 2)) \/
   (Z.rem a 2 <> 0 /\ toHalfIntegerString a = (d ++ "/2")%string /\ d = to_string a)).
Proof.
  intros Ha. unfold toHalfIntegerString.
  rewrite Z.quot_div_nonneg, Z.rem_mod_nonneg by lia.
  pose proof (Z.div_mod a 2 ltac:(lia)) as Hd. pose proof (Z.mod_pos_bound a 2 ltac:(lia)) as Hm.
  destruct (Z.eqb_spec (a mod 2) 0) as [E|E].
  - exists (to_string (a / 2)). split; [apply digits_to_string; lia|left; auto].
  - exists (to_string a). split; [apply digits_to_string; lia|right].
    replace (2 * (a / 2) + 1) with a by lia. auto.
Qed.

Lemma half_split a b c d r s : 0 <= a -> 0 <= b -> ~ digit c -> ~ digit d -> c <> "/"%char -> d <> "/"%char ->
  (toHalfIntegerString a ++ String c r = toHalfIntegerString b ++ String d s)%string ->
  a = b /\ c = d /\ r = s.
Proof.
  intros Ha Hb Hc Hd Hc' Hd' H.
  destruct (half_shape a Ha) as (x & Hx & [(Ra & Ea & Fa)|(Ra & Ea & Fa)]);
  destruct (half_shape b Hb) as (y & Hy & [(Rb & Eb & Fb)|(Rb & Eb & Fb)]); rewrite Ea, Eb in H.
  - destruct (digits_split _ _ _ _ _ _ Hx Hy Hc Hd H) as (E & -> & ->). rewrite Fa, Fb in E.
    apply to_string_inj in E. rewrite Z.rem_mod_nonneg in Ra, Rb by lia.
    pose proof (Z.div_mod a 2 ltac:(lia)). pose proof (Z.div_mod b 2 ltac:(lia)).
    split; [lia|auto].
  - rewrite append_assoc in H. cbn in H.
    assert (Hs : ~ digit "/"%char) by not_digit.
    destruct (digits_split _ _ _ _ _ _ Hx Hy Hc Hs H) as (_ & E & _). contradiction.
  - rewrite append_assoc in H. cbn in H.
    assert (Hs : ~ digit "/"%char) by not_digit.
    destruct (digits_split _ _ _ _ _ _ Hx Hy Hs Hd H) as (_ & E & _). symmetry in E; contradiction.
  - rewrite !append_assoc in H. cbn in H.
    assert (Hs : ~ digit "/"%char) by not_digit.
    destruct (digits_split _ _ _ _ _ _ Hx Hy Hs Hs H) as (E & _ & E2). rewrite Fa, Fb in E.
    apply to_string_inj in E. injection E2 as -> ->. auto.
Qed.

(** toString followed by anything determines the quantum numbers and the rest. *)
Lemma toString_split p q r s : valid_qnum p -> valid_qnum q ->
  (toString p ++ r = toString q ++ s)%string -> p = q /\ r = s.
Proof.
  destruct p as [l1 s1 J1 p1], q as [l2 s2 J2 p2]. unfold valid_qnum; cbn [ql qs qJ qp].
  intros (Hs1 & HJ1 & Hp1) (Hs2 & HJ2 & Hp2).
  unfold toString; cbn [ql qs qJ qp].
  repeat (rewrite ?append_assoc; cbn [append]).
  intros H. injection H as H.
  destruct (digits_split _ _ ","%char ","%char _ _ (digits_to_string (Z.of_nat l1) ltac:(lia)) (digits_to_string (Z.of_nat l2) ltac:(lia))
             ltac:(not_digit) ltac:(not_digit) H) as (E1 & _ & H1).
  apply to_string_inj in E1.
  destruct (half_split _ _ ","%char ","%char _ _ Hs1 Hs2 ltac:(not_digit) ltac:(not_digit) ltac:(discriminate) ltac:(discriminate) H1)
    as (E2 & _ & H2).
  assert (H3 : exists c d, ~ digit c /\ ~ digit d /\ c <> "/"%char /\ d <> "/"%char /\ (c = d -> p1 = p2) /\
    (toHalfIntegerString J1 ++ String c (String "}" r) = toHalfIntegerString J2 ++ String d (String "}" s))%string).
  { destruct Hp1 as [-> | ->], Hp2 as [-> | ->]; cbn in H2 |- *; rewrite ?append_assoc in H2; cbn in H2.
    - exists "+"%char, "+"%char. repeat split; auto; try not_digit; discriminate.
    - exists "+"%char, "-"%char. repeat split; auto; try not_digit; discriminate.
    - exists "-"%char, "+"%char. repeat split; auto; try not_digit; discriminate.
    - exists "-"%char, "-"%char. repeat split; auto; try not_digit; discriminate. }
  destruct H3 as (c & d & Hc & Hd & Hc' & Hd' & Hcd & H3).
  destruct (half_split _ _ _ _ _ _ HJ1 HJ2 Hc Hd Hc' Hd' H3) as (E3 & E4 & H4).
  injection H4 as ->. split; [|reflexivity].
  rewrite (Hcd E4), E2, E3. f_equal. lia.
Qed.

Lemma append_nil_r (s : string) : (s ++ "" = s)%string.
Proof. induction s as [|c s IH]; cbn; [|rewrite IH]; reflexivity. Qed.

Lemma toString_inj p q : valid_qnum p -> valid_qnum q -> toString p = toString q -> p = q.
Proof.
  intros Hp Hq H. apply (toString_split p q "" "" Hp Hq). rewrite !append_nil_r; exact H.
Qed.

Lemma toString_head q : exists r, toString q = String "{" r.
Proof. unfold toString; cbn; eauto. Qed.

Lemma brace_split a b r s : no_brace a -> no_brace b ->
  (a ++ String "{" r = b ++ String "{" s)%string -> a = b /\ r = s.
Proof.
  revert b. induction a as [|x a IH]; intros [|y b] Ha Hb H; cbn in *.
  - injection H as ->; auto.
  - injection H as <- _. destruct Hb as [Hb _]; congruence.
  - injection H as -> _. destruct Ha as [Ha _]; congruence.
  - injection H as -> H. destruct Ha as (_ & _ & Ha), Hb as (_ & _ & Hb).
    destruct (IH b Ha Hb H) as [-> ->]; auto.
Qed.

Lemma channelID_split a b p q r s : no_brace a -> no_brace b -> valid_qnum p -> valid_qnum q ->
  (makeChannelID a p ++ r = makeChannelID b q ++ s)%string -> a = b /\ p = q /\ r = s.
Proof.
  intros Ha Hb Hp Hq. unfold makeChannelID. rewrite !append_assoc. intros H.
  destruct (toString_head p) as [tp Ep], (toString_head q) as [tq Eq].
  assert (H' := H). rewrite Ep, Eq in H'. cbn [append] in H'.
  destruct (brace_split _ _ _ _ Ha Hb H') as [-> _].
  apply append_inv_head in H. destruct (toString_split p q r s Hp Hq H) as [-> ->]; auto.
Qed.

Lemma channelID_inj a b p q : no_brace a -> no_brace b -> valid_qnum p -> valid_qnum q ->
  makeChannelID a p = makeChannelID b q -> a = b /\ p = q.
Proof.
  intros Ha Hb Hp Hq H.
  destruct (channelID_split a b p q "" "" Ha Hb Hp Hq) as (? & ? & _); auto.
  rewrite !append_nil_r; exact H.
Qed.

Lemma reactionChannelID_inj a b c d p q u v :
  no_brace a -> no_brace b -> no_brace c -> no_brace d ->
  valid_qnum p -> valid_qnum q -> valid_qnum u -> valid_qnum v ->
  reactionChannelID (makeChannelID a p) (makeChannelID b q) =
  reactionChannelID (makeChannelID c u) (makeChannelID d v) ->
  (a = c /\ p = u) /\ (b = d /\ q = v).
Proof.
  intros Ha Hb Hc Hd Hp Hq Hu Hv. unfold reactionChannelID. intros H.
  destruct (channelID_split _ _ _ _ _ _ Ha Hc Hp Hu H) as (-> & -> & H2).
  apply append_inv_head in H2. apply channelID_inj in H2; auto.
Qed.

(** Negative half-integers would collide, so the restriction to spins is needed. *)
Lemma toHalfIntegerString_negative_collision : toHalfIntegerString (-1) = toHalfIntegerString 1.
Proof. reflexivity. Qed.
