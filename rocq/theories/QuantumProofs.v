From Coq Require Import String Ascii Bool DecimalString DecimalZ List ZArith Lia Sorted Permutation.
From Verif Require Import Outcome QuantumModel QuantumSpec.
Import ListNotations.
Open Scope Z_scope.

(** ** Coupling loop *)

Fixpoint steps (n : nat) (x : Z) : list Z :=
  match n with O => [x] | S n' => x :: steps n' (x + 2) end.

Lemma coupling_loop_steps n : forall fuel max back,
  max = back + 2 * Z.of_nat n -> (n < fuel)%nat ->
  coupling_loop fuel max back = Ok (steps n back).
Proof.
  induction n as [|n IH]; intros fuel max back Hm Hf; destruct fuel as [|f]; try lia; cbn [coupling_loop steps].
  - destruct (Z.gtb_spec max back); [lia|reflexivity].
  - destruct (Z.gtb_spec max back); [|lia].
    rewrite (IH f max (back + 2)); [reflexivity|lia|lia].
Qed.

Lemma in_steps n : forall x y,
  In y (steps n x) <-> (x <= y <= x + 2 * Z.of_nat n /\ Z.Even (y - x)).
Proof.
  induction n as [|n IH]; intros x y; cbn [steps In].
  - split.
    + intros [->|[]]; split; [lia|exists 0; lia].
    + intros [H _]; left; lia.
  - rewrite IH; split.
    + intros [->|[H [k Hk]]]; (split; [lia|]); [exists 0; lia|exists (k+1); lia].
    + intros [H [k Hk]]. destruct (Z.eq_dec x y) as [E|E]; [left; exact E|right].
      split; [lia|exists (k-1); lia].
Qed.

Lemma steps_sorted n : forall x, StronglySorted Z.lt (steps n x).
Proof.
  induction n as [|n IH]; intros x; cbn [steps]; constructor; auto; try constructor.
  apply Forall_forall; intros y Hy; apply in_steps in Hy; lia.
Qed.

Lemma coupling_spec min max : min <= max -> Z.Even (max - min) ->
  exists n, max = min + 2 * Z.of_nat n /\
            coupling_loop (coupling_fuel min max) max min = Ok (steps n min).
Proof.
  intros H [k Hk]. exists (Z.to_nat k).
  assert (Hn : max = min + 2 * Z.of_nat (Z.to_nat k)) by lia.
  split; [exact Hn|]. apply coupling_loop_steps; [exact Hn|].
  unfold coupling_fuel; lia.
Qed.

Lemma even_iff a b : (exists k, a = b + 2 * k) -> (Z.Even a <-> Z.Even b).
Proof. intros [k ->]; split; intros [m Hm]; [exists (m - k)|exists (m + k)]; lia. Qed.

Lemma triangle_list a b : 0 <= a -> 0 <= b -> exists l,
  coupling_loop (coupling_fuel (Z.abs (a - b)) (a + b)) (a + b) (Z.abs (a - b)) = Ok l /\
  StronglySorted Z.lt l /\ forall c, In c l <-> triangle a b c.
Proof.
  intros Ha Hb.
  destruct (coupling_spec (Z.abs (a - b)) (a + b)) as (n & Hn & E); [lia| |].
  { destruct (Z.abs_spec (a - b)) as [[_ ->]|[_ ->]]; [exists b|exists a]; lia. }
  exists (steps n (Z.abs (a - b))); split; [exact E|]; split; [apply steps_sorted|].
  intros c; rewrite in_steps, <- Hn; unfold triangle.
  rewrite (even_iff (a + b + c) (c - Z.abs (a - b))); [reflexivity|].
  destruct (Z.abs_spec (a - b)) as [[_ ->]|[_ ->]]; [exists a|exists b]; lia.
Qed.

Lemma channel_spins_spec i I : is_spin i -> is_spin I -> exists l,
  possibleChannelSpinValues i I = Ok l /\
  StronglySorted Z.lt l /\ forall s, In s l <-> triangle i I s.
Proof. intros; apply triangle_list; assumption. Qed.

Lemma possibleJ_spec l s : is_spin s -> exists js,
  possibleJ l s = Ok js /\
  StronglySorted Z.lt js /\ forall J, In J js <-> triangle (2 * Z.of_nat l) s J.
Proof. intros; apply triangle_list; unfold is_spin in *; lia. Qed.

Lemma possibleJ3_list l i I : is_spin i -> is_spin I -> exists js,
  possibleJ3 l i I = Ok js /\ StronglySorted Z.lt js /\
  forall J, In J js <->
    (Z.abs (Z.abs (2 * Z.of_nat l - I) - i) <= J <= 2 * Z.of_nat l + I + i /\
     Z.Even (J + I + i)).
Proof.
  unfold is_spin; intros Hi HI; unfold possibleJ3.
  set (a := 2 * Z.of_nat l). assert (Ha : 0 <= a) by (unfold a; lia).
  set (m := Z.abs (Z.abs (a - I) - i)).
  assert (Hm : exists k, m = I + i + 2 * k).
  { unfold m. assert (exists k0, a = 2 * k0) as [k0 Hk0] by (exists (Z.of_nat l); reflexivity).
    destruct (Z.abs_spec (a - I)) as [[_ ->]|[_ ->]];
    match goal with |- context [Z.abs ?x] => destruct (Z.abs_spec x) as [[_ ->]|[_ ->]] end;
    [exists (k0 - I - i)|exists (- k0)|exists (- k0 - i)|exists (k0 - I)]; lia. }
  destruct Hm as [k Hk].
  destruct (coupling_spec m (a + I + i)) as (n & Hn & E).
  { unfold m; lia. }
  { exists (Z.of_nat l - k). unfold a in *. lia. }
  exists (steps n m); split; [exact E|]; split; [apply steps_sorted|].
  intros J; rewrite in_steps, <- Hn.
  rewrite (even_iff (J - m) (J + I + i)); [reflexivity|]. exists (- I - i - k); lia.
Qed.

(** Everything the three argument version returns can be reached through some channel spin. *)
Lemma possibleJ3_sound l i I : is_spin i -> is_spin I -> exists js,
  possibleJ3 l i I = Ok js /\
  forall J, In J js -> exists s, triangle i I s /\ triangle (2 * Z.of_nat l) s J.
Proof.
  intros Hi HI. destruct (possibleJ3_list l i I Hi HI) as (js & E & _ & Hin).
  exists js; split; [exact E|]. intros J HJ; apply Hin in HJ; destruct HJ as [HJ [k Hk]].
  unfold is_spin in *. set (a := 2 * Z.of_nat l) in *.
  exists (Z.max (Z.abs (i - I)) (Z.abs (a - J))).
  assert (Hp1 : exists p, Z.abs (i - I) = i + I + 2 * p).
  { destruct (Z.abs_spec (i - I)) as [[_ ->]|[_ ->]]; [exists (- I)|exists (- i)]; lia. }
  assert (Hp2 : exists p, Z.abs (a - J) = i + I + 2 * p).
  { unfold a. destruct (Z.abs_spec (2 * Z.of_nat l - J)) as [[_ ->]|[_ ->]];
    [exists (Z.of_nat l - k)|exists (k - Z.of_nat l - i - I)]; lia. }
  destruct Hp1 as [p1 Hp1], Hp2 as [p2 Hp2].
  unfold triangle. split; split.
  - lia.
  - destruct (Z.max_spec (Z.abs (i - I)) (Z.abs (a - J))) as [[_ ->]|[_ ->]];
    [exists (i + I + p2)|exists (i + I + p1)]; lia.
  - lia.
  - unfold a in *.
    destruct (Z.max_spec (Z.abs (i - I)) (Z.abs (2 * Z.of_nat l - J))) as [[_ ->]|[_ ->]];
    [exists (Z.of_nat l + p2 + k)|exists (Z.of_nat l + p1 + k)]; lia.
Qed.

(** For a projectile of spin 0 or 1/2 nothing is missing. *)
Lemma possibleJ3_complete l i I : is_spin i -> is_spin I -> i <= 1 -> exists js,
  possibleJ3 l i I = Ok js /\ StronglySorted Z.lt js /\
  forall J, In J js <-> exists s, triangle i I s /\ triangle (2 * Z.of_nat l) s J.
Proof.
  intros Hi HI Hi1. destruct (possibleJ3_list l i I Hi HI) as (js & E & Hs & Hin).
  destruct (possibleJ3_sound l i I Hi HI) as (js' & E' & Hsound).
  assert (js' = js) by congruence. subst js'.
  exists js; repeat split; auto.
  intros (s & [Hs1 [k1 Hk1]] & [Hs2 [k2 Hk2]]). apply Hin.
  assert (HE : Z.Even (J + I + i)) by (exists (k1 + k2 - s - Z.of_nat l); lia).
  split; [|exact HE]. destruct HE as [k Hk].
  unfold is_spin in *. lia.
Qed.

Lemma possibleJ3_incomplete :
  exists l i I js J, is_spin i /\ is_spin I /\ possibleJ3 l i I = Ok js /\
    (exists s, triangle i I s /\ triangle (2 * Z.of_nat l) s J) /\ ~ In J js.
Proof.
  exists 1%nat, 2, 2, [2;4;6], 0. repeat split; try (unfold is_spin; lia); try reflexivity.
  - exists 2. unfold triangle. repeat split; try (simpl; lia); [exists 3; reflexivity|exists 2; reflexivity].
  - simpl. lia.
Qed.

(** ** Enumeration of the quantum numbers *)

Lemma natural_parity_spec l : natural_parity l = (if Nat.even l then 1 else -1).
Proof.
  unfold natural_parity.
  destruct (Nat.even l) eqn:E.
  - apply Nat.even_spec in E. destruct E as [m ->].
    replace (Z.of_nat (2 * m)) with (2 * Z.of_nat m) by lia.
    rewrite Z.pow_mul_r by lia. replace ((-1)^2) with 1 by reflexivity.
    rewrite Z.pow_1_l by lia. reflexivity.
  - assert (Ho : Nat.odd l = true) by (unfold Nat.odd; rewrite E; reflexivity).
    apply Nat.odd_spec in Ho. destruct Ho as [m ->].
    replace (Z.of_nat (2 * m + 1)) with (2 * Z.of_nat m + 1) by lia.
    rewrite Z.pow_add_r by lia. rewrite Z.pow_mul_r by lia.
    replace ((-1)^2) with 1 by reflexivity. rewrite Z.pow_1_l by lia. reflexivity.
Qed.

Lemma mapM_ok {A B} (f : A -> outcome B) (g : A -> B) l :
  (forall x, In x l -> f x = Ok (g x)) -> mapM f l = Ok (map g l).
Proof.
  induction l as [|x r IH]; intros H; cbn [mapM map]; [reflexivity|].
  rewrite (H x (or_introl eq_refl)); cbn [bind].
  rewrite IH by (intros y Hy; apply H; right; exact Hy). reflexivity.
Qed.

Definition theJ (l : nat) (s : Z) : list Z :=
  match possibleJ l s with Ok js => js | _ => [] end.

Lemma theJ_ok l s : is_spin s -> possibleJ l s = Ok (theJ l s).
Proof. intros H; destruct (possibleJ_spec l s H) as (js & E & _); unfold theJ; rewrite E; reflexivity. Qed.
Lemma theJ_in l s J : is_spin s -> (In J (theJ l s) <-> triangle (2 * Z.of_nat l) s J).
Proof. intros H; destruct (possibleJ_spec l s H) as (js & E & _ & Hin); unfold theJ; rewrite E; apply Hin. Qed.
Lemma theJ_sorted l s : is_spin s -> StronglySorted Z.lt (theJ l s).
Proof. intros H; destruct (possibleJ_spec l s H) as (js & E & Hs & _); unfold theJ; rewrite E; exact Hs. Qed.

Definition theS (i I : Z) : list Z :=
  match possibleChannelSpinValues i I with Ok js => js | _ => [] end.
Lemma theS_ok i I : is_spin i -> is_spin I -> possibleChannelSpinValues i I = Ok (theS i I).
Proof. intros H H'; destruct (channel_spins_spec i I H H') as (js & E & _); unfold theS; rewrite E; reflexivity. Qed.
Lemma theS_in i I s : is_spin i -> is_spin I -> (In s (theS i I) <-> triangle i I s).
Proof. intros H H'; destruct (channel_spins_spec i I H H') as (js & E & _ & Hin); unfold theS; rewrite E; apply Hin. Qed.
Lemma theS_sorted i I : is_spin i -> is_spin I -> StronglySorted Z.lt (theS i I).
Proof. intros H H'; destruct (channel_spins_spec i I H H') as (js & E & Hs & _); unfold theS; rewrite E; exact Hs. Qed.

Lemma triangle_nonneg a b c : triangle a b c -> 0 <= c.
Proof. unfold triangle; lia. Qed.

Definition numbers_pure (l : nat) (s : Z) : list qnum :=
  map (fun J => mkQ l s J (natural_parity l)) (theJ l s).

Lemma makeQuantumNumbers_ok i I lmax : is_spin i -> is_spin I ->
  makeQuantumNumbers i I lmax =
  Ok (concat (map (fun l => concat (map (numbers_pure l) (theS i I))) (seq 0 lmax))).
Proof.
  intros Hi HI. unfold makeQuantumNumbers. rewrite (theS_ok i I Hi HI). cbn [bind].
  assert (Hl : forall l, numbers_l l (theS i I) = Ok (concat (map (numbers_pure l) (theS i I)))).
  { intros l. unfold numbers_l.
    rewrite (mapM_ok (numbers_l_s l) (numbers_pure l)); [reflexivity|].
    intros s Hs. apply theS_in in Hs; auto. apply triangle_nonneg in Hs.
    unfold numbers_l_s. rewrite (theJ_ok l s Hs). reflexivity. }
  rewrite (mapM_ok (fun l => numbers_l l (theS i I)) (fun l => concat (map (numbers_pure l) (theS i I))));
    [reflexivity|]. intros l _; apply Hl.
Qed.

Lemma sorted_nodup l : StronglySorted Z.lt l -> NoDup l.
Proof.
  induction 1 as [|x l Hs IH Hf]; constructor; auto.
  intros Hin; rewrite Forall_forall in Hf; apply Hf in Hin; lia.
Qed.

Lemma nodup_concat {A B} (f : A -> list B) (key : B -> A) l :
  NoDup l -> (forall x, NoDup (f x)) -> (forall x y, In x l -> In y (f x) -> key y = x) ->
  NoDup (concat (map f l)).
Proof.
  induction l as [|x r IH]; intros Hl Hf Hk; cbn [map concat]; [constructor|].
  inversion Hl as [|? ? Hx Hr]; subst.
  assert (Hrr : NoDup (concat (map f r))).
  { apply IH; auto. intros a b Ha Hb; apply Hk; [right; exact Ha|exact Hb]. }
  assert (Hdis : forall y, In y (f x) -> ~ In y (concat (map f r))).
  { intros y Hy Hc. apply in_concat in Hc. destruct Hc as (ys & Hys & Hy').
    apply in_map_iff in Hys. destruct Hys as (a & <- & Ha).
    assert (key y = x) by (apply (Hk x y); [left; reflexivity|exact Hy]).
    assert (key y = a) by (apply (Hk a y); [right; exact Ha|exact Hy']).
    subst. contradiction. }
  specialize (Hf x). clear - Hf Hrr Hdis.
  induction (f x) as [|y ys IHy]; cbn [app]; [exact Hrr|].
  inversion Hf as [|? ? Hy Hys]; subst. constructor.
  - rewrite in_app_iff. intros [H|H]; [contradiction|].
    apply (Hdis y); [left; reflexivity|exact H].
  - apply IHy; auto. intros z Hz; apply Hdis; right; exact Hz.
Qed.

Lemma in_numbers_pure l s q : is_spin s ->
  (In q (numbers_pure l s) <->
   ql q = l /\ qs q = s /\ triangle (2 * Z.of_nat l) s (qJ q) /\ qp q = natural_parity l).
Proof.
  intros Hs. unfold numbers_pure. rewrite in_map_iff. split.
  - intros (J & <- & HJ). apply theJ_in in HJ; auto.
  - destruct q as [l' s' J' p']; cbn. intros (-> & -> & HJ & ->).
    exists J'. split; [reflexivity|]. apply theJ_in; auto.
Qed.

Lemma makeQuantumNumbers_spec i I lmax : is_spin i -> is_spin I ->
  exists qs, makeQuantumNumbers i I lmax = Ok qs /\ NoDup qs /\
             forall q, In q qs <-> spec_number i I lmax q.
Proof.
  intros Hi HI. rewrite (makeQuantumNumbers_ok i I lmax Hi HI). eexists; split; [reflexivity|].
  assert (Hsp : forall s, In s (theS i I) -> is_spin s).
  { intros s Hs; apply theS_in in Hs; auto; apply triangle_nonneg in Hs; exact Hs. }
  assert (Hlin : forall l q, In q (concat (map (numbers_pure l) (theS i I))) <->
     ql q = l /\ triangle i I (qs q) /\ triangle (2 * Z.of_nat l) (qs q) (qJ q) /\ qp q = natural_parity l).
  { intros l q. rewrite in_concat. split.
    - intros (ys & Hys & Hq). apply in_map_iff in Hys. destruct Hys as (s & <- & Hs).
      apply in_numbers_pure in Hq; [|apply Hsp; exact Hs].
      destruct Hq as (H1 & H2 & H3 & H4). rewrite H2. apply theS_in in Hs; auto.
    - intros (H1 & H2 & H3 & H4). exists (numbers_pure l (qs q)). split.
      + apply in_map. apply theS_in; auto.
      + apply in_numbers_pure; [apply triangle_nonneg in H2; exact H2|auto]. }
  split.
  - apply (nodup_concat _ ql).
    + apply seq_NoDup.
    + intros l. apply NoDup_filter with (f := fun _ => true) || idtac.
      assert (Hn : NoDup (concat (map (fun s => if in_dec Z.eq_dec s (theS i I) then numbers_pure l s else []) (theS i I)))).
      { apply (nodup_concat _ qs).
        - apply sorted_nodup, theS_sorted; auto.
        - intros s. destruct (in_dec Z.eq_dec s (theS i I)) as [Hs|]; [|constructor].
          unfold numbers_pure. apply FinFun.Injective_map_NoDup.
          + intros a b H; inversion H; reflexivity.
          + apply sorted_nodup, theJ_sorted, Hsp, Hs.
        - intros s q Hs Hq. destruct (in_dec Z.eq_dec s (theS i I)); [|contradiction].
          apply in_numbers_pure in Hq; [tauto|apply Hsp; exact Hs]. }
      erewrite map_ext_in; [exact Hn|]. intros s Hs; cbv beta.
      destruct (in_dec Z.eq_dec s (theS i I)); [reflexivity|contradiction].
    + intros l q _ Hq. apply Hlin in Hq. tauto.
  - intros q. rewrite in_concat. unfold spec_number. split.
    + intros (ys & Hys & Hq). apply in_map_iff in Hys. destruct Hys as (l & <- & Hl).
      apply in_seq in Hl. apply Hlin in Hq. destruct Hq as (-> & H2 & H3 & H4).
      rewrite natural_parity_spec in H4. repeat split; auto; try (apply H2); try apply H3; lia.
    + intros (H1 & H2 & H3 & H4). eexists. split.
      * apply in_map_iff. exists (ql q). split; [reflexivity|]. apply in_seq; lia.
      * apply Hlin. rewrite natural_parity_spec. repeat split; auto; try apply H2; apply H3.
Qed.

(** ** Retrieval *)

Lemma compareNumbers_spec a b : compareNumbers a b = true <-> a = b.
Proof.
  unfold compareNumbers. rewrite !andb_true_iff, Nat.eqb_eq, !Z.eqb_eq.
  destruct a, b; cbn; split; [intros (((-> & ->) & ->) & ->); reflexivity|intros H; inversion H; auto].
Qed.

Lemma erase_first_in n l : In n l ->
  exists a b, l = a ++ n :: b /\ ~ In n a /\ erase_first n l = Ok (a ++ b).
Proof.
  induction l as [|x r IH]; intros H; [destruct H|]. cbn [erase_first].
  destruct (compareNumbers x n) eqn:E.
  - apply compareNumbers_spec in E; subst x. exists [], r; cbn; auto.
  - destruct H as [->|H].
    { assert (compareNumbers n n = true) by (apply compareNumbers_spec; reflexivity). congruence. }
    destruct (IH H) as (a & b & -> & Ha & He). exists (x :: a), b. cbn. rewrite He; cbn.
    repeat split; auto. intros [->|Hin]; [|auto].
    assert (compareNumbers n n = true) by (apply compareNumbers_spec; reflexivity). congruence.
Qed.

Lemma matches_spec l j q : matches l j q = true <-> ql q = l /\ qJ q = Z.abs j.
Proof. unfold matches; rewrite andb_true_iff, Nat.eqb_eq, Z.eqb_eq; tauto. Qed.

Lemma filter_head {A} (f : A -> bool) l x r : filter f l = x :: r ->
  exists a b, l = a ++ x :: b /\ (forall y, In y a -> f y = false) /\ f x = true /\ filter f b = r.
Proof.
  induction l as [|y l IH]; cbn [filter]; intros H; [discriminate|].
  destruct (f y) eqn:E.
  - inversion H; subst. exists [], l; cbn; repeat split; auto; tauto.
  - destruct (IH H) as (a & b & -> & Ha & Hx & Hb). exists (y :: a), b; cbn; repeat split; auto.
    intros z [->|Hz]; auto.
Qed.

Lemma filter_last {A} (f : A -> bool) d : forall l, filter f l <> [] ->
  exists a b, l = a ++ last (filter f l) d :: b /\ f (last (filter f l) d) = true /\
              (forall y, In y b -> f y = false).
Proof.
  induction l as [|y l IH]; cbn [filter]; intros H; [congruence|].
  destruct (f y) eqn:E.
  - destruct (filter f l) as [|z zs] eqn:F.
    + exists [], l; cbn; repeat split; auto. intros u Hu.
      destruct (f u) eqn:Eu; [|reflexivity].
      assert (Hc : In u (filter f l)) by (apply filter_In; auto). rewrite F in Hc; destruct Hc.
    + destruct IH as (a & b & Hl & Hf & Hb); [discriminate|].
      exists (y :: a), b. cbn [last] in *. split; [cbn; f_equal; exact Hl|auto].
  - destruct (IH H) as (a & b & Hl & Hf & Hb). exists (y :: a), b; cbn; split; [f_equal; exact Hl|auto].
Qed.


Lemma split_unique {A} (n : A) : forall a a1 b b1,
  a ++ n :: b = a1 ++ n :: b1 -> ~ In n a -> ~ In n a1 -> a = a1 /\ b = b1.
Proof.
  induction a as [|x a IH]; intros [|y a1] b b1 H Ha Ha1; cbn in *.
  - inversion H; auto.
  - injection H as -> _. destruct Ha1; left; reflexivity.
  - injection H as <- _. destruct Ha; left; reflexivity.
  - injection H as -> H. destruct (IH a1 b b1 H) as [-> ->]; auto.
Qed.

Lemma last_cons {A} (x : A) r d : last (x :: r) d = last r x.
Proof.
  revert x d; induction r as [|y r IH]; intros x d; [reflexivity|].
  change (last (x :: y :: r) d) with (last (y :: r) d). rewrite (IH y d), (IH y x). reflexivity.
Qed.

Lemma retrieve_ok l j av q left :
  retrieveQuantumNumber l j av = Ok (q, left) -> retrieved l j av q left.
Proof.
  unfold retrieveQuantumNumber. destruct (filter (matches l j) av) as [|front rest] eqn:F; [discriminate|].
  set (numbers := match rest with [] => front | _ => _ end).
  intros H.
  assert (Hcase : (j < 0 -> numbers = front) /\ (0 <= j -> numbers = last (filter (matches l j) av) front)).
  { rewrite F, last_cons. unfold numbers. destruct rest; [auto|].
    destruct (Z.ltb_spec j 0); split; intros; auto; lia. }
  destruct Hcase as [Hneg Hpos].
  destruct (filter_head _ _ _ _ F) as (a1 & b1 & Hav1 & Ha1 & Hm1 & _).
  destruct (filter_last (matches l j) front av) as (a2 & b2 & Hav2 & Hm2 & Hb2); [rewrite F; discriminate|].
  assert (Hin : In numbers av /\ matches l j numbers = true).
  { destruct (Z.lt_ge_cases j 0) as [Hj|Hj].
    - rewrite (Hneg Hj). split; [rewrite Hav1; apply in_elt|exact Hm1].
    - rewrite (Hpos Hj). split; [|exact Hm2]. rewrite Hav2 at 2; apply in_elt. }
  destruct Hin as [Hin Hm].
  destruct (erase_first_in numbers av Hin) as (a & b & Hav & Hna & He).
  rewrite He in H; cbn [bind] in H. injection H as Hq Hleft. subst q left.
  apply matches_spec in Hm. destruct Hm as [Hl HJ].
  repeat split; auto. exists a, b. split; [exact Hav|]. split; [reflexivity|]. split.
  - intros Hj q' Hq' Hc. apply matches_spec in Hc.
    rewrite (Hneg Hj) in *.
    assert (Hn1 : ~ In front a1) by (intros Hx; rewrite (Ha1 _ Hx) in Hm1; discriminate).
    rewrite Hav in Hav1. destruct (split_unique _ _ _ _ _ Hav1 Hna Hn1) as [-> _].
    rewrite (Ha1 q' Hq') in Hc; discriminate.
  - intros Hj Hnd q' Hq' Hc. apply matches_spec in Hc.
    rewrite <- (Hpos Hj) in *.
    assert (Hn2 : ~ In numbers a2).
    { rewrite Hav2 in Hnd. intros Hx. apply NoDup_remove_2 in Hnd. apply Hnd, in_app_iff; auto. }
    rewrite Hav in Hav2. destruct (split_unique _ _ _ _ _ Hav2 Hna Hn2) as [_ ->].
    rewrite (Hb2 q' Hq') in Hc; discriminate.
Qed.

Lemma retrieve_total l j av :
  (exists q, In q av /\ ql q = l /\ qJ q = Z.abs j) ->
  exists q left, retrieveQuantumNumber l j av = Ok (q, left).
Proof.
  intros (q & Hq & Hl & HJ).
  unfold retrieveQuantumNumber. destruct (filter (matches l j) av) as [|front rest] eqn:F.
  { assert (Hf : In q (filter (matches l j) av)) by (apply filter_In; split; [|apply matches_spec]; auto).
    rewrite F in Hf; destruct Hf. }
  set (numbers := match rest with [] => front | _ => _ end).
  assert (Hin : In numbers av).
  { assert (Hf : In numbers (filter (matches l j) av)).
    { rewrite F. unfold numbers. destruct rest as [|z zs]; [left; reflexivity|].
      destruct (j <? 0); [left; reflexivity|right]. clear.
      revert z; induction zs as [|w ws IH]; intros z; [left; reflexivity|].
      right. change (last (z :: w :: ws) front) with (last (w :: ws) front). apply IH. }
    apply filter_In in Hf; tauto. }
  destruct (erase_first_in numbers av Hin) as (a & b & _ & _ & He).
  rewrite He; cbn [bind]; eauto.
Qed.

Lemma retrieve_throws l j av :
  throws (retrieveQuantumNumber l j av) <-> forall q, In q av -> ~ (ql q = l /\ qJ q = Z.abs j).
Proof.
  split.
  - intros [e He] q Hq [Hl HJ].
    destruct (retrieve_total l j av) as (q' & left & E); [eauto|congruence].
  - intros H. unfold retrieveQuantumNumber.
    destruct (filter (matches l j) av) as [|front rest] eqn:F; [eexists; reflexivity|].
    exfalso. assert (Hf : In front (filter (matches l j) av)) by (rewrite F; left; reflexivity).
    apply filter_In in Hf. destruct Hf as [Hi Hm]. apply matches_spec in Hm. apply (H front); auto.
Qed.

Lemma retrieve_cases l j av :
  (exists q left, retrieveQuantumNumber l j av = Ok (q, left)) \/ throws (retrieveQuantumNumber l j av).
Proof.
  destruct (filter (matches l j) av) as [|front rest] eqn:F.
  - right. unfold retrieveQuantumNumber. rewrite F. eexists; reflexivity.
  - left. apply retrieve_total. exists front.
    assert (Hf : In front (filter (matches l j) av)) by (rewrite F; left; reflexivity).
    apply filter_In in Hf. rewrite matches_spec in Hf. tauto.
Qed.

Lemma retrieve_perm l j av q left : retrieveQuantumNumber l j av = Ok (q, left) -> Permutation av (q :: left).
Proof.
  intros H. apply retrieve_ok in H. destruct H as (_ & _ & a & b & -> & -> & _).
  symmetry. apply Permutation_middle.
Qed.

Lemma retrieveAll_spec reqs : forall av got left, retrieveAll reqs av = Ok (got, left) ->
  Permutation av (got ++ left) /\
  Forall2 (fun r q => ql q = fst r /\ qJ q = Z.abs (snd r)) reqs got.
Proof.
  induction reqs as [|[l j] r IH]; intros av got left H; cbn [retrieveAll] in H.
  - inversion H; subst; split; [reflexivity|constructor].
  - destruct (retrieveQuantumNumber l j av) as [[q left1]| | |] eqn:E; cbn [bind] in H; try discriminate.
    destruct (retrieveAll r left1) as [[got1 left2]| | |] eqn:E2; cbn [bind] in H; try discriminate.
    inversion H; subst. destruct (IH _ _ _ E2) as [Hp Hf]. split.
    + rewrite (retrieve_perm _ _ _ _ _ E). cbn. constructor. exact Hp.
    + constructor; [|exact Hf]. apply retrieve_ok in E. destruct E as (? & ? & _); auto.
Qed.

Lemma nodup_app_l {A} (l l' : list A) : NoDup (l ++ l') -> NoDup l.
Proof. induction l as [|x l IH]; cbn; intros H; [constructor|]. inversion H; subst. constructor; [rewrite in_app_iff in *; tauto|auto]. Qed.

Lemma retrieveAll_distinct reqs av got left : NoDup av -> retrieveAll reqs av = Ok (got, left) ->
  NoDup got /\ (forall q, In q got -> In q av /\ ~ In q left) /\
  (forall q, In q av -> In q got \/ In q left).
Proof.
  intros Hnd H. destruct (retrieveAll_spec _ _ _ _ H) as [Hp _].
  assert (Hnd' : NoDup (got ++ left)) by (apply (Permutation_NoDup Hp Hnd)).
  split; [apply (nodup_app_l _ _ Hnd')|]. split.
  - intros q Hq. split.
    + apply (Permutation_in q (Permutation_sym Hp)). apply in_app_iff; auto.
    + intros Hl. apply in_split in Hq. destruct Hq as (a & b & ->).
      rewrite <- app_assoc in Hnd'. cbn in Hnd'. apply NoDup_remove_2 in Hnd'.
      apply Hnd'. rewrite !in_app_iff; auto.
  - intros q Hq. apply in_app_iff. apply (Permutation_in q Hp Hq).
Qed.

(** The fresh list of a spin 1/2 projectile: the sign of j selects the channel spin. *)
Lemma retrieve_sign I lmax l j av q left : is_spin I -> (l < lmax)%nat ->
  makeQuantumNumbers 1 I lmax = Ok av ->
  retrieveQuantumNumber l j av = Ok (q, left) ->
  triangle (2 * Z.of_nat l) (Z.abs (1 - I)) (Z.abs j) -> triangle (2 * Z.of_nat l) (1 + I) (Z.abs j) ->
  qs q = if j <? 0 then Z.abs (1 - I) else 1 + I.
Proof.
  intros HI Hl Hav Hr Hlow Hhigh.
  assert (H1 : is_spin 1) by (unfold is_spin; lia).
  pose proof (makeQuantumNumbers_spec 1 I lmax H1 HI) as (av' & Hav' & Hnd & Hin).
  assert (av' = av) by congruence; subst av'; clear Hav'.
  destruct (retrieve_ok _ _ _ _ _ Hr) as (Hql & HqJ & a & b & Hsplit & _ & Hneg & Hpos).
  (* positions: the enumeration lists lower channel spins of one l first *)
  assert (Horder : forall x y, ql x = ql y -> forall u v w, av = u ++ x :: v ++ y :: w -> qs x <= qs y).
  { intros x y Hxy u v w Huv.
    rewrite (makeQuantumNumbers_ok 1 I lmax H1 HI) in Hav.
    injection Hav as Hav. rewrite Huv in Hav. clear - Hav Hxy H1 HI.
    assert (Hs : StronglySorted (fun p q => ql p = ql q -> qs p <= qs q) (u ++ x :: v ++ y :: w)).
    { rewrite <- Hav. clear - H1 HI.
      assert (Hin1 : forall l s p, In p (numbers_pure l s) -> ql p = l /\ qs p = s).
      { intros l s p H. unfold numbers_pure in H. apply in_map_iff in H. destruct H as (J & <- & _); auto. }
      assert (Hin2 : forall l ss p, In p (concat (map (numbers_pure l) ss)) -> ql p = l /\ In (qs p) ss).
      { intros l ss p H. apply in_concat in H. destruct H as (ys & Hys & Hp). apply in_map_iff in Hys.
        destruct Hys as (s & <- & Hs). apply Hin1 in Hp. destruct Hp as [-> ->]; auto. }
      assert (Happ : forall (R : qnum -> qnum -> Prop) l1 l2, StronglySorted R l1 -> StronglySorted R l2 ->
          (forall p q, In p l1 -> In q l2 -> R p q) -> StronglySorted R (l1 ++ l2)).
      { intros R l1 l2 S1 S2 H. induction S1 as [|z l1 S1 IH F]; cbn; auto.
        constructor.
        - apply IH. intros p q Hp Hq; apply H; [right|]; auto.
        - apply Forall_app; split; auto. apply Forall_forall; intros q Hq; apply H; [left|]; auto. }
      assert (Hall : forall (R : qnum -> qnum -> Prop) l1, (forall p q, In p l1 -> In q l1 -> R p q) -> StronglySorted R l1).
      { intros R l1; induction l1 as [|z l1 IH]; intros H; constructor.
        - apply IH; intros p q Hp Hq; apply H; right; auto.
        - apply Forall_forall; intros q Hq; apply H; [left|right]; auto. }
      assert (Hl : forall l ss, StronglySorted Z.lt ss ->
          StronglySorted (fun p q => ql p = ql q -> qs p <= qs q) (concat (map (numbers_pure l) ss))).
      { intros l ss Hss. induction Hss as [|s ss Hss IH F]; cbn; [constructor|].
        apply Happ; auto.
        - apply Hall. intros p q Hp Hq _. apply Hin1 in Hp, Hq. lia.
        - intros p q Hp Hq _. apply Hin1 in Hp. apply Hin2 in Hq. destruct Hq as [_ Hq].
          rewrite Forall_forall in F. apply F in Hq. lia. }
      generalize 0%nat. induction lmax as [|n IH]; intros m; cbn; [constructor|].
      apply Happ.
      - apply Hl. apply theS_sorted; auto.
      - apply IH.
      - intros p q Hp Hq E. exfalso. apply Hin2 in Hp. apply in_concat in Hq.
        destruct Hq as (ys & Hys & Hq). apply in_map_iff in Hys. destruct Hys as (k & <- & Hk).
        apply in_seq in Hk. apply Hin2 in Hq. lia. }
    clear - Hs Hxy. induction u as [|z u IH]; cbn in Hs.
    - inversion Hs as [|? ? _ F]; subst. rewrite Forall_forall in F. apply F; auto. apply in_elt.
    - inversion Hs; subst; auto. }
  assert (HinL : forall s, triangle 1 I s -> triangle (2 * Z.of_nat l) s (Z.abs j) ->
            In (mkQ l s (Z.abs j) (if Nat.even l then 1 else -1)) av).
  { intros s Hs HJ. apply Hin. unfold spec_number; cbn. auto. }
  assert (Ht1 : triangle 1 I (Z.abs (1 - I))).
  { unfold is_spin, triangle in *. split; [lia|]. destruct (Z.abs_spec (1 - I)) as [[_ ->]|[_ ->]]; [exists 1|exists I]; lia. }
  assert (Ht2 : triangle 1 I (1 + I)).
  { unfold is_spin, triangle in *. split; [lia|]. exists (1 + I); lia. }
  assert (Hq : spec_number 1 I lmax q) by (apply Hin; rewrite Hsplit; apply in_elt).
  destruct Hq as (_ & [Hqs1 [k Hk]] & _ & _).
  assert (Hqs : qs q = Z.abs (1 - I) \/ qs q = 1 + I) by (unfold is_spin in *; lia).
  destruct (Z.ltb_spec j 0) as [Hj|Hj].
  - pose proof (HinL _ Ht1 Hlow) as Hi. rewrite Hsplit in Hi. apply in_app_iff in Hi.
    destruct Hi as [Hi|[Hi|Hi]].
    + exfalso. apply (Hneg Hj _ Hi). auto.
    + rewrite Hi; reflexivity.
    + apply in_split in Hi. destruct Hi as (u & v & ->).
      assert (Ho := fun E => Horder q (mkQ l (Z.abs (1 - I)) (Z.abs j) (if Nat.even l then 1 else -1)) E a u v Hsplit). specialize (Ho Hql). cbn [qs ql] in Ho. unfold is_spin in *; lia.
  - pose proof (HinL _ Ht2 Hhigh) as Hi. rewrite Hsplit in Hi. apply in_app_iff in Hi.
    destruct Hi as [Hi|[Hi|Hi]].
    + apply in_split in Hi. destruct Hi as (u & v & ->). rewrite <- app_assoc in Hsplit. cbn in Hsplit.
      assert (Ho := fun E => Horder (mkQ l (1 + I) (Z.abs j) (if Nat.even l then 1 else -1)) q E u v b Hsplit). specialize (Ho (eq_sym Hql)). cbn [qs ql] in Ho. unfold is_spin in *; lia.
    + rewrite Hi; reflexivity.
    + exfalso. apply (Hpos Hj Hnd _ Hi). auto.
Qed.
