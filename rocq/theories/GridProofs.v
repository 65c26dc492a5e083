(** The energy grids: sorting, the refinement of the unresolved grid. *)
From Coq Require Import String List ZArith Reals Lra Lia Permutation Bool Psatz Sorted.
From Verif Require Import Outcome ListFacts GridModel GridSpec.
Import ListNotations.
Open Scope R_scope.

(** * Sorting *)
Lemma insertR_in x y l : In y (insertR x l) <-> y = x \/ In y l.
Proof.
  induction l as [|z l IH]; cbn; [intuition|]. destruct (Rle_dec x z); cbn; [intuition|]. rewrite IH. intuition.
Qed.
Lemma sortR_in y l : In y (sortR l) <-> In y l.
Proof. induction l as [|x l IH]; [reflexivity|]. cbn [sortR fold_right]. fold (sortR l). rewrite insertR_in, IH. cbn. intuition. Qed.
Lemma insertR_sorted x l : StronglySorted Rle l -> StronglySorted Rle (insertR x l).
Proof.
  induction l as [|z l IH]; intros H; cbn; [repeat constructor|]. destruct (Rle_dec x z) as [L|L].
  - constructor; [exact H|]. apply StronglySorted_inv in H as [_ F]. constructor; [exact L|].
    rewrite Forall_forall in *. intros w Hw. specialize (F w Hw). lra.
  - apply StronglySorted_inv in H as [S F]. constructor; [apply IH, S|]. rewrite Forall_forall in *.
    intros w Hw. apply insertR_in in Hw as [-> | Hw]; [lra | apply F, Hw].
Qed.
Lemma sortR_sorted l : StronglySorted Rle (sortR l).
Proof. induction l as [|x l IH]; [constructor|]. apply insertR_sorted, IH. Qed.
Lemma uniqueR_in y l : In y (uniqueR l) <-> In y l.
Proof.
  induction l as [|x l IH]; [reflexivity|]. cbn [uniqueR]. destruct (uniqueR l) as [|z r] eqn:E.
  - cbn. rewrite <- IH. reflexivity.
  - destruct (Req_EM_T x z) as [->|N]; cbn [In] in *; rewrite <- IH; intuition.
Qed.
Lemma uniqueR_sorted l : StronglySorted Rle l -> increasing (uniqueR l).
Proof.
  induction l as [|x l IH]; intros H; [constructor|]. apply StronglySorted_inv in H as [S F]. specialize (IH S).
  cbn [uniqueR]. destruct (uniqueR l) as [|z r] eqn:E; [repeat constructor|].
  destruct (Req_EM_T x z) as [->|N]; [exact IH|].
  constructor; [exact IH|]. rewrite Forall_forall in *. 
  assert (Hz : x < z). { assert (x <= z) by (apply F, uniqueR_in; rewrite E; left; reflexivity). lra. }
  apply StronglySorted_inv in IH as [_ G]. rewrite Forall_forall in G.
  intros w [<-|Hw]; [exact Hz | specialize (G w Hw); lra].
Qed.
Lemma sortUnique_spec l : increasing (sortUnique l) /\ forall x, In x (sortUnique l) <-> In x l.
Proof.
  split; [apply uniqueR_sorted, sortR_sorted|]. intros x. unfold sortUnique. rewrite uniqueR_in. apply sortR_in.
Qed.
(** Only one increasing list has given elements *)
Lemma increasing_unique l l' : increasing l -> increasing l' -> (forall x, In x l <-> In x l') -> l = l'.
Proof.
  intros H; revert l'. induction H as [|x l S IH F]; intros l' H' E.
  - destruct l' as [|y l']; [reflexivity|]. exfalso. apply (E y). left; reflexivity.
  - destruct H' as [|y l' S' F']; [exfalso; apply (E x); left; reflexivity|].
    rewrite Forall_forall in F, F'.
    assert (x = y).
    { destruct (proj1 (E x) (or_introl eq_refl)) as [->|Hx]; [reflexivity|].
      destruct (proj2 (E y) (or_introl eq_refl)) as [->|Hy]; [reflexivity|].
      specialize (F y Hy). specialize (F' x Hx). lra. }
    subst y. f_equal. apply IH; [exact S'|]. intros z. split; intros Hz.
    + destruct (proj1 (E z) (or_intror Hz)) as [->|H]; [specialize (F z Hz); lra | exact H].
    + destruct (proj2 (E z) (or_intror Hz)) as [->|H]; [specialize (F' z Hz); lra | exact H].
Qed.

(** * Decades *)
Lemma ln10 : 0 < ln 10.
Proof. rewrite <- ln_1. apply ln_increasing; lra. Qed.
Lemma pow10 e : powerRZ 10 e = exp (IZR e * ln 10).
Proof. rewrite (powerRZ_Rpower 10 e) by lra. reflexivity. Qed.
Lemma pow10_pos e : 0 < powerRZ 10 e.
Proof. rewrite pow10. apply exp_pos. Qed.
Lemma pow10_mono e f : (e <= f)%Z -> powerRZ 10 e <= powerRZ 10 f.
Proof.
  intros H. rewrite !pow10. assert (IZR e * ln 10 <= IZR f * ln 10).
  { apply Rmult_le_compat_r; [apply Rlt_le, ln10 | apply IZR_le, H]. }
  destruct (Rle_lt_or_eq_dec _ _ H0) as [L | ->]; [apply Rlt_le, exp_increasing, L | lra].
Qed.
Lemma pow10_S e : powerRZ 10 (e + 1) = 10 * powerRZ 10 e.
Proof. rewrite powerRZ_add by lra. change (powerRZ 10 1) with (10 * 1). ring. Qed.
Lemma pow10_inj_lt e f : powerRZ 10 e < powerRZ 10 f -> (e < f)%Z.
Proof. intros H. destruct (Z_lt_le_dec e f) as [|L]; [assumption|]. apply pow10_mono in L. lra. Qed.

Lemma floor_log p : 0 < p -> let e := Int_part (ln p / ln 10) in powerRZ 10 e <= p < 10 * powerRZ 10 e.
Proof.
  intros Hp. cbv zeta. set (x := ln p / ln 10). destruct (base_Int_part x) as [H1 H2]. rewrite <- pow10_S, !pow10.
  pose proof ln10 as L. assert (E : p = exp (x * ln 10)).
  { unfold x. replace (ln p / ln 10 * ln 10) with (ln p) by (field; lra). rewrite exp_ln by assumption. reflexivity. }
  rewrite E. split.
  - assert (IZR (Int_part x) * ln 10 <= x * ln 10) by (apply Rmult_le_compat_r; lra).
    destruct (Rle_lt_or_eq_dec _ _ H) as [Hl | ->]; [apply Rlt_le, exp_increasing, Hl | lra].
  - apply exp_increasing, Rmult_lt_compat_r; [exact L|]. rewrite plus_IZR. lra.
Qed.
Lemma exponent_range p : 0 < p -> let B := powerRZ 10 (exponent p) in 17/20 * B <= p < 17/2 * B.
Proof.
  intros Hp. cbv zeta. unfold exponent. rewrite (Rabs_pos_eq p) by lra.
  destruct (floor_log p Hp) as [H1 H2]. destruct (Rle_dec _ _) as [L|L].
  - rewrite pow10_S. pose proof (pow10_pos (Int_part (ln p / ln 10))). lra.
  - lra.
Qed.
Lemma exponent_last e : exponent (17/2 * powerRZ 10 e) = (e + 1)%Z.
Proof.
  pose proof (pow10_pos e) as P. destruct (exponent_range (17/2 * powerRZ 10 e) ltac:(lra)) as [H1 H2].
  set (f := exponent _) in *.
  assert ((e < f)%Z) by (apply pow10_inj_lt; lra).
  assert ((f < e + 1 + 1)%Z) by (apply pow10_inj_lt; rewrite !pow10_S; lra). lia.
Qed.

(** * The points of a decade *)
Definition step (a b : R) : Prop := a < b <= 5/4 * a.
Lemma values_steps e : Sorted step (17/20 * powerRZ 10 e :: pointValues e).
Proof.
  pose proof (pow10_pos e) as P. unfold pointValues, points. cbn [map]. set (B := powerRZ 10 e) in *. clearbody B.
  repeat (apply Sorted_cons; [|apply HdRel_cons; unfold step; lra]). apply Sorted_cons; [constructor | constructor].
Qed.
Lemma values_last e d : last (pointValues e) d = 17/2 * powerRZ 10 e.
Proof. unfold pointValues, points. cbn [map last]. lra. Qed.
Lemma values_decade e x : In x (pointValues e) -> decade_point x.
Proof.
  unfold pointValues. intros H. apply in_map_iff in H as (m & <- & Hm). exists m, e. split; [|reflexivity].
  unfold points in Hm. unfold mantissas. cbn [In] in *.
  repeat (destruct Hm as [<-|Hm]; [match goal with |- context [?a = ?b] => idtac end; lra|]). destruct Hm.
Qed.

Lemma from_upper_steps p L : forall q, Sorted step (q :: L) -> q <= p -> 0 < q -> Sorted step (p :: from_upper p L).
Proof.
  induction L as [|y L IH]; intros q S Hq P; cbn [from_upper]; [repeat constructor|].
  apply Sorted_inv in S as [S H]. apply HdRel_inv in H. unfold step in H. destruct (Rlt_dec p y).
  - constructor; [exact S|]. constructor. unfold step. lra.
  - apply (IH y); [exact S | lra..].
Qed.
Lemma from_upper_last p L d : p < last L d -> L <> [] -> last (from_upper p L) d = last L d /\ from_upper p L <> [].
Proof.
  induction L as [|y L IH]; intros H N; [contradiction|]. cbn [from_upper]. destruct (Rlt_dec p y); [split; [reflexivity | discriminate]|].
  destruct L as [|z L]; [cbn in H; lra|]. apply IH; [exact H | discriminate].
Qed.
Lemma from_upper_in p L x : In x (from_upper p L) -> In x L.
Proof. induction L as [|y L IH]; cbn [from_upper]; [auto|]. destruct (Rlt_dec p y); [auto|]. right. apply IH, H. Qed.
Lemma to_lower_in c D x : In x (to_lower c D) -> In x D.
Proof. induction D as [|y D IH]; cbn [to_lower]; [auto|]. destruct (Rlt_dec y c); [|intros []]. intros [<-|H]; [left; reflexivity | right; apply IH, H]. Qed.
Lemma to_lower_prefix c D : forall p, Sorted step (p :: D) -> Sorted step (p :: to_lower c D).
Proof.
  induction D as [|y D IH]; intros p S; cbn [to_lower]; [exact S|]. destruct (Rlt_dec y c); [|repeat constructor].
  apply Sorted_inv in S as [S H]. constructor; [apply IH, S|]. apply HdRel_inv in H. constructor. exact H.
Qed.
Lemma to_lower_reaches c D d : forall p, Sorted step (p :: D) -> p < c -> c <= last D d -> D <> [] ->
  Sorted step (p :: to_lower c D ++ [c]).
Proof.
  induction D as [|y D IH]; intros p S Hp Hc N; [contradiction|]. cbn [to_lower].
  apply Sorted_inv in S as [S H]. apply HdRel_inv in H. destruct (Rlt_dec y c) as [L|L].
  - cbn [app]. constructor; [|constructor; exact H]. destruct D as [|z D]; [cbn in Hc; lra|].
    apply IH; [exact S | exact L | exact Hc | discriminate].
  - cbn. constructor; [repeat constructor|]. constructor. unfold step in *. lra.
Qed.
Lemma sorted_all D d : forall p, Sorted step (p :: D) -> D <> [] -> forall x, In x D -> 0 < p -> x <= last D d.
Proof.
  induction D as [|y D IH]; intros p S N x Hx Hp; [contradiction|]. apply Sorted_inv in S as [S H]. apply HdRel_inv in H. unfold step in H.
  destruct D as [|z D].
  - destruct Hx as [<-|[]]. cbn. lra.
  - destruct Hx as [<-|Hx].
    + apply Rle_trans with z.
      * apply Sorted_inv in S as [_ H']. apply HdRel_inv in H'. unfold step in H'. lra.
      * apply (IH y S ltac:(discriminate) z (or_introl eq_refl)). lra.
    + apply (IH y S ltac:(discriminate) x Hx). lra.
Qed.
Lemma to_lower_all c D : (forall x, In x D -> x < c) -> to_lower c D = D.
Proof.
  induction D as [|y D IH]; intros H; cbn [to_lower]; [reflexivity|]. destruct (Rlt_dec y c) as [L|L].
  - f_equal. apply IH. intros x Hx. apply H. right; exact Hx.
  - exfalso. apply L, H. left; reflexivity.
Qed.

(** * The loop *)
Definition state (n : nat) (b : list R) (p : R) (r : list R) : outcome (list R) :=
  refine n (b ++ p :: r) (length b) (length b + 1).
Lemma at_here (b : list R) p r w : at_or_ub (b ++ p :: r) (length b) w = Ok p.
Proof. unfold at_or_ub. rewrite nth_error_app2, Nat.sub_diag by lia. reflexivity. Qed.
Lemma at_next (b : list R) p c r w : at_or_ub (b ++ p :: c :: r) (length b + 1) w = Ok c.
Proof.
  unfold at_or_ub. rewrite nth_error_app2 by lia. replace (length b + 1 - length b)%nat with 1%nat by lia. reflexivity.
Qed.
Lemma not_end (b : list R) p c r : Nat.eqb (length b + 1) (length (b ++ p :: c :: r)) = false.
Proof. rewrite app_length. cbn [length]. apply Nat.eqb_neq. lia. Qed.
Lemma state_end n b p : state n b p [] = Ok (b ++ [p]).
Proof. unfold state. destruct n; cbn [refine]; rewrite app_length; cbn [length]; rewrite Nat.eqb_refl; reflexivity. Qed.
Lemma state_next n b p c r : compare_ratio c p = NotGreater -> state (S n) b p (c :: r) = state n (b ++ [p]) c r.
Proof.
  intros H. unfold state. cbn [refine]. rewrite not_end, at_here, at_next. cbn [bind]. rewrite H.
  rewrite <- app_assoc. cbn [app]. rewrite app_length. cbn [length]. reflexivity.
Qed.
Lemma state_zero n b p c r : compare_ratio c p = OfZero -> is_ub (state (S n) b p (c :: r)).
Proof.
  intros H. unfold state. cbn [refine]. rewrite not_end, at_here, at_next. cbn [bind]. rewrite H. eexists; reflexivity.
Qed.
Lemma cut_last (p : R) T : p :: T = removelast (p :: T) ++ [last T p].
Proof.
  rewrite (app_removelast_last p (l := p :: T)) at 1 by discriminate. f_equal. f_equal. destruct T; reflexivity.
Qed.
Lemma state_insert n b p c r : compare_ratio c p = Greater -> let T := inserted p c in
  state (S n) b p (c :: r) = state n (b ++ removelast (p :: T)) (last T p) (c :: r).
Proof.
  intros H. cbv zeta. unfold state. cbn [refine]. rewrite not_end, at_here, at_next. cbn [bind]. rewrite H. cbv zeta.
  set (T := inserted p c). unfold vector_insert.
  assert (E1 : firstn (length b + 1) (b ++ p :: c :: r) = b ++ [p]).
  { rewrite firstn_app, firstn_all2 by lia. replace (length b + 1 - length b)%nat with 1%nat by lia. reflexivity. }
  assert (E2 : skipn (length b + 1) (b ++ p :: c :: r) = c :: r).
  { rewrite skipn_app, skipn_all2 by lia. replace (length b + 1 - length b)%nat with 1%nat by lia. reflexivity. }
  rewrite E1, E2.
  assert (E3 : (b ++ [p]) ++ T ++ c :: r = (b ++ removelast (p :: T)) ++ last T p :: c :: r).
  { rewrite <- !app_assoc. f_equal. change ([p] ++ T ++ c :: r) with ((p :: T) ++ c :: r). rewrite (cut_last p T) at 1.
    rewrite <- app_assoc. reflexivity. }
  assert (E4 : length (b ++ removelast (p :: T)) = (length b + length T)%nat).
  { rewrite app_length. f_equal. pose proof (f_equal (@length R) (cut_last p T)) as E. rewrite app_length in E. cbn [length] in E. lia. }
  rewrite E3, E4. f_equal; lia.
Qed.

Lemma compare_greater c p : 0 < p -> compare_ratio c p = Greater <-> 5/4 * p < c.
Proof.
  intros Hp. unfold compare_ratio. destruct (Req_EM_T p 0); [lra|].
  assert (E : 1.25 < c / p <-> 5/4 * p < c).
  { split; intros H.
    - apply (Rmult_lt_compat_r p) in H; [|exact Hp]. unfold Rdiv in H. rewrite Rmult_assoc, Rinv_l, Rmult_1_r in H by lra. lra.
    - apply (Rmult_lt_reg_r p); [exact Hp|]. unfold Rdiv. rewrite Rmult_assoc, Rinv_l by lra. lra. }
  destruct (Rlt_dec 1.25 (c / p)) as [L|L]; [split; [intros _; apply E, L | reflexivity]|].
  split; [discriminate|]. intros H. apply E in H. contradiction.
Qed.
Lemma compare_not c p : p < c -> (p < 0 \/ (0 < p /\ c <= 5/4 * p)) -> compare_ratio c p = NotGreater.
Proof.
  intros Hc [Hp|[Hp H]].
  - unfold compare_ratio. destruct (Req_EM_T p 0); [lra|]. destruct (Rlt_dec 1.25 (c / p)) as [L|]; [exfalso|reflexivity].
    assert (c / p < 1).
    { apply (Rmult_lt_reg_r (- p)); [lra|]. unfold Rdiv. replace (c * / p * - p) with (- c) by (field; lra). lra. }
    lra.
  - pose proof (compare_greater c p Hp) as G. destruct (compare_ratio c p) eqn:E; [|reflexivity|].
    + destruct G as [G _]. specialize (G eq_refl). lra.
    + unfold compare_ratio in E. destruct (Req_EM_T p 0); [lra|]. destruct (Rlt_dec _ _); discriminate.
Qed.

Lemma sorted_join l : forall (p c : R) r, Sorted step (p :: l ++ [c]) -> Sorted step (c :: r) -> Sorted step (p :: l ++ c :: r).
Proof.
  induction l as [|y l IH]; intros p c r H H'; cbn [app] in *.
  - apply Sorted_inv in H as [_ H]. apply HdRel_inv in H. constructor; [exact H' | constructor; exact H].
  - apply Sorted_inv in H as [S H]. apply HdRel_inv in H. constructor; [apply IH; assumption | constructor; exact H].
Qed.

Lemma last_step T : forall p c, Sorted step (p :: T ++ [c]) -> step (last T p) c.
Proof.
  induction T as [|y T IH]; intros p c S.
  - cbn in *. apply Sorted_inv in S as [_ H]. apply HdRel_inv in H. exact H.
  - cbn [app] in S. apply Sorted_inv in S as [S _]. specialize (IH y c S). destruct T as [|z T]; [exact IH|].
    replace (last (y :: z :: T) p) with (last (z :: T) y); [exact IH|]. clear. revert y z. induction T as [|w T IH]; intros; [reflexivity|].
    cbn [last] in *. apply (IH y).
Qed.
Lemma pair_sorted p c : step p c -> Sorted step (p :: [] ++ [c]).
Proof. intros H. cbn. constructor; [constructor; [constructor | constructor] | constructor; exact H]. Qed.
(** All the insertions between two energies *)
Lemma fill_decades k : forall p c, 0 < p < c -> c <= 17/2 * powerRZ 10 (exponent p + Z.of_nat k) ->
  exists n l, (forall fuel b r, state (n + fuel) b p (c :: r) = state fuel (b ++ p :: l) c r) /\
    Sorted step (p :: l ++ [c]) /\ (forall x, In x l -> decade_point x) /\ (c <= 5/4 * p -> l = []).
Proof.
  induction k as [|k IH]; intros p c Hpc Hk.
  all: destruct (Rle_lt_dec c (5/4 * p)) as [Hle|Hgt];
    [exists 1%nat, []; split; [intros fuel b r; apply state_next, compare_not; lra|]; split;
      [apply pair_sorted; unfold step; lra|]; split; [intros x [] | reflexivity]|].
  all: pose proof (proj2 (compare_greater c p ltac:(lra)) Hgt) as HG.
  all: destruct (exponent_range p ltac:(lra)) as [HB1 HB2]; set (e := exponent p) in *; set (B := powerRZ 10 e) in *.
  all: assert (HBp : 0 < B) by apply pow10_pos.
  all: assert (SD : Sorted step (p :: from_upper p (pointValues e)))
    by (apply (from_upper_steps p _ (17/20 * B)); [apply values_steps | lra | lra]).
  all: assert (N : pointValues e <> []) by discriminate.
  all: destruct (from_upper_last p (pointValues e) p ltac:(rewrite values_last; exact HB2) N) as [HL HN]; rewrite values_last in HL; fold B in HL.
  all: assert (HIN : inserted p c = to_lower c (from_upper p (pointValues e))) by reflexivity.
  all: set (D := from_upper p (pointValues e)) in *.
  all: assert (HD : forall x, In x (to_lower c D) -> decade_point x)
    by (intros x Hx; apply to_lower_in, from_upper_in in Hx; apply (values_decade e x Hx)).
  all: assert (Base : c <= 17/2 * B -> exists n l, (forall fuel b r, state (n + fuel) b p (c :: r) = state fuel (b ++ p :: l) c r) /\
    Sorted step (p :: l ++ [c]) /\ (forall x, In x l -> decade_point x) /\ (c <= 5/4 * p -> l = [])).
  1,3: intros Hc; exists 2%nat, (to_lower c D);
    assert (ST : Sorted step (p :: to_lower c D ++ [c])) by (apply (to_lower_reaches c D p); [exact SD | lra | rewrite HL; exact Hc | exact HN]);
    split; [|split; [exact ST | split; [exact HD | intros; lra]]];
    intros fuel b r; change (2 + fuel)%nat with (S (S fuel)); rewrite (state_insert _ _ _ _ _ HG); cbv zeta; rewrite HIN;
    rewrite state_next; [rewrite <- app_assoc, <- cut_last; reflexivity|];
    assert (SL : step (last (to_lower c D) p) c);
    [ apply last_step, ST
    | unfold step in SL; apply compare_not; lra ].
  - apply Base. rewrite Z.add_0_r in Hk. exact Hk.
  - destruct (Rle_lt_dec c (17/2 * B)) as [Hc|Hc]; [apply Base, Hc|].
    assert (HT : to_lower c D = D).
    { apply to_lower_all. intros x Hx. pose proof (sorted_all D p p SD HN x Hx ltac:(lra)) as Hle. rewrite HL in Hle. lra. }
    destruct (IH (17/2 * B) c ltac:(lra)) as (n & l & Hrun & Hs & Hd & _).
    { unfold B. rewrite exponent_last. replace (e + 1 + Z.of_nat k)%Z with (e + Z.of_nat (S k))%Z by lia. exact Hk. }
    exists (S n), (D ++ l). split; [|split; [|split]].
    + intros fuel b r. change (S n + fuel)%nat with (S (n + fuel)). rewrite (state_insert _ _ _ _ _ HG). cbv zeta. rewrite HIN, HT, HL, Hrun.
      f_equal. rewrite <- app_assoc. f_equal.
      transitivity ((removelast (p :: D) ++ [last D p]) ++ l); [rewrite HL, <- app_assoc; reflexivity|].
      rewrite <- cut_last. reflexivity.
    + assert (E : D = removelast D ++ [17/2 * B]) by (rewrite <- HL; apply app_removelast_last, HN).
      rewrite <- app_assoc. rewrite E, <- app_assoc. cbn [app]. apply sorted_join; [rewrite <- E; exact SD | exact Hs].
    + intros x Hx. apply in_app_or in Hx as [Hx|Hx]; [apply HD; rewrite HT; exact Hx | apply Hd, Hx].
    + intros; lra.
Qed.
Lemma fill p c : 0 < p < c -> exists n l, (forall fuel b r, state (n + fuel) b p (c :: r) = state fuel (b ++ p :: l) c r) /\
    Sorted step (p :: l ++ [c]) /\ (forall x, In x l -> decade_point x) /\ (c <= 5/4 * p -> l = []).
Proof.
  intros H. destruct (exponent_range c ltac:(lra)) as [_ Hc]. destruct (exponent_range p ltac:(lra)) as [Hp _].
  destruct (Z_le_gt_dec (exponent p) (exponent c)) as [L|L].
  - apply (fill_decades (Z.to_nat (exponent c - exponent p)) p c H).
    replace (exponent p + Z.of_nat (Z.to_nat (exponent c - exponent p)))%Z with (exponent c) by lia. lra.
  - apply (fill_decades 0 p c H). rewrite Z.add_0_r. assert (powerRZ 10 (exponent c) <= powerRZ 10 (exponent p)) by (apply pow10_mono; lia). lra.
Qed.
