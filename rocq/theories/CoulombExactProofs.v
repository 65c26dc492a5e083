(** The Coulomb wave functions in exact arithmetic. *)
From Coq Require Import String List ZArith Reals Bool Lia Lra.
From Verif Require Import Outcome ListFacts CoulombWaveModel CoulombExactModel CoulombWaveSpec CoulombWaveProofs.
Import ListNotations.
Open Scope R_scope.
Notation cells := (list (pair_of exact)).
Notation ex_read := (read exact).

(** * Finite numbers *)
Lemma Reqb_false x y : x <> y -> Reqb x y = false.
Proof. intros H. unfold Reqb. destruct (Req_EM_T x y); [contradiction | reflexivity]. Qed.
Lemma Rltb_true x y : x < y -> Rltb x y = true.
Proof. intros H. unfold Rltb. destruct (Rlt_dec x y); [reflexivity | contradiction]. Qed.
Lemma Rltb_false x y : y <= x -> Rltb x y = false.
Proof. intros H. unfold Rltb. destruct (Rlt_dec x y); [lra | reflexivity]. Qed.
Lemma Rleb_true x y : x <= y -> Rleb x y = true.
Proof. intros H. unfold Rleb. destruct (Rle_dec x y); [reflexivity | contradiction]. Qed.
Lemma div_Fin a b : b <> 0 -> ext_div (Fin a) (Fin b) = Fin (a / b).
Proof. intros H. cbn [ext_div]. rewrite (Reqb_false _ _ H). reflexivity. Qed.
Lemma sqrt_Fin a : 0 <= a -> ext_sqrt (Fin a) = Fin (sqrt a).
Proof. intros H. cbn [ext_sqrt]. rewrite Rltb_false by exact H. reflexivity. Qed.
Lemma root_pos l e : (1 <= l)%Z -> 0 < sqrt (IZR l * IZR l + e * e).
Proof. intros H. apply sqrt_lt_R0. apply IZR_le in H. nra. Qed.

(** * The steps of the recurrence *)
Definition Gstep (e r : R) (l : Z) (a b : R) : R :=
  ((IZR l + IZR (l + 1)) * (e + IZR l * IZR (l + 1) / r) * b - IZR (l + 1) * sqrt (IZR l * IZR l + e * e) * a)
  / (IZR l * sqrt (IZR (l + 1) * IZR (l + 1) + e * e)).
Definition Fstep (e r : R) (l : Z) (a b : R) : R :=
  ((IZR l + IZR (l + 1)) * (e + IZR l * IZR (l + 1) / r) * b - IZR l * sqrt (IZR (l + 1) * IZR (l + 1) + e * e) * a)
  / (IZR (l + 1) * sqrt (IZR l * IZR l + e * e)).
Lemma Gfunction_exact e r l a b : r <> 0 -> (1 <= l)%Z -> omGfunction exact l (Fin e) (Fin r) (Fin a) (Fin b) = Fin (Gstep e r l a b).
Proof.
  intros Hr Hl. unfold omGfunction. cbn [exact dec add sub mul div fsqrt ext_dec ext_mul ext_add]. rewrite (div_Fin _ r Hr). cbn [ext_add ext_mul].
  assert (1 <= IZR l) by (apply IZR_le; exact Hl). rewrite !sqrt_Fin by nra. cbn [ext_mul ext_sub]. rewrite div_Fin; [reflexivity|].
  assert (0 < sqrt (IZR (l + 1) * IZR (l + 1) + e * e)) by (apply root_pos; lia). nra.
Qed.
Lemma Ffunction_exact e r l a b : r <> 0 -> (1 <= l)%Z -> omFfunction exact l (Fin e) (Fin r) (Fin a) (Fin b) = Fin (Fstep e r l a b).
Proof.
  intros Hr Hl. unfold omFfunction. cbn [exact dec add sub mul div fsqrt ext_dec ext_mul ext_add]. rewrite (div_Fin _ r Hr). cbn [ext_add ext_mul].
  assert (1 <= IZR l) by (apply IZR_le; exact Hl). rewrite !sqrt_Fin by nra. cbn [ext_mul ext_sub]. rewrite div_Fin; [reflexivity|].
  assert (0 < sqrt (IZR l * IZR l + e * e)) by (apply root_pos; lia). assert (0 < IZR (l + 1)) by (apply IZR_lt; lia). nra.
Qed.
Lemma INR_to_nat l : (0 <= l)%Z -> INR (Z.to_nat l) = IZR l.
Proof. intros H. rewrite INR_IZR_INZ, Z2Nat.id by exact H. reflexivity. Qed.
Lemma to_nat_succ l : (0 <= l)%Z -> Z.to_nat (l + 1) = S (Z.to_nat l).
Proof. intros H. lia. Qed.
Section Steps.
Variables (e r : R) (l : Z).
Hypotheses (Hr : r <> 0) (Hl : (1 <= l)%Z).
Definition relation (x0 x1 x2 : R) : Prop :=
  cR e (S (Z.to_nat l)) * x2 = (cS e r (Z.to_nat l) + cS e r (S (Z.to_nat l))) * x1 - cR e (Z.to_nat l) * x0.
Let j := IZR l.
Let j1 := IZR (l + 1).
Let s := sqrt (j * j + e * e).
Let s1 := sqrt (j1 * j1 + e * e).
Local Lemma facts : 0 < j /\ 0 < j1 /\ 0 < s /\ 0 < s1 /\ j1 = j + 1 /\
  (forall x0 x1 x2, relation x0 x1 x2 <-> s1 / j1 * x2 = (j / r + e / j + (j1 / r + e / j1)) * x1 - s / j * x0).
Proof.
  assert (0 < j) by (apply IZR_lt; lia). assert (0 < j1) by (apply IZR_lt; lia). assert (0 < s) by (apply root_pos; lia). assert (0 < s1) by (apply root_pos; lia).
  repeat split; try assumption.
  - unfold j1, j. rewrite plus_IZR. reflexivity.
  - unfold relation, cR, cS. rewrite <- !to_nat_succ by lia. rewrite !INR_to_nat by lia. auto.
  - unfold relation, cR, cS. rewrite <- !to_nat_succ by lia. rewrite !INR_to_nat by lia. auto.
Qed.
Lemma relation_G x0 x1 x2 : relation x0 x1 x2 <-> x2 = Gstep e r l x0 x1.
Proof.
  destruct facts as (P1 & P2 & P3 & P4 & E & Q). rewrite Q. unfold Gstep. fold j j1. fold s s1. split.
  - intros H. assert (H' : x2 = j1 / s1 * (s1 / j1 * x2)) by (field; lra). rewrite H' , H. rewrite E. field. lra.
  - intros ->. rewrite E. field. lra.
Qed.
Lemma relation_F x0 x1 x2 : relation x0 x1 x2 <-> x0 = Fstep e r l x2 x1.
Proof.
  destruct facts as (P1 & P2 & P3 & P4 & E & Q). rewrite Q. unfold Fstep. fold j j1. fold s s1. split.
  - intros H. assert (H' : x0 = j / s * ((j / r + e / j + (j1 / r + e / j1)) * x1 - s1 / j1 * x2)) by (rewrite H; field; lra). rewrite H'. rewrite E. field. lra.
  - intros ->. rewrite E. field. lra.
Qed.
End Steps.
Lemma solves_relation e r X l : solves e r X -> (1 <= l)%Z -> relation e r l (X (Z.to_nat (l - 1))) (X (Z.to_nat l)) (X (Z.to_nat (l + 1))).
Proof.
  intros H Hl. unfold relation. specialize (H (Z.to_nat l) ltac:(lia)). rewrite to_nat_succ by lia. replace (Z.to_nat (l - 1)) with (pred (Z.to_nat l)) by lia. exact H.
Qed.
Lemma relation_solves e r X : (forall l, (1 <= l)%Z -> relation e r l (X (Z.to_nat (l - 1))) (X (Z.to_nat l)) (X (Z.to_nat (l + 1)))) -> solves e r X.
Proof.
  intros H l Hl. specialize (H (Z.of_nat l) ltac:(lia)). unfold relation in H. rewrite to_nat_succ, Nat2Z.id in H by lia.
  replace (Z.to_nat (Z.of_nat l - 1)) with (pred l) in H by lia. exact H.
Qed.

(** * Solutions *)
(** Upwards: X n and X (n + 1) *)
Fixpoint climb (e r g0 g1 : R) (n : nat) : R * R :=
  match n with
  | O => (g0, g1)
  | S m => let (a, b) := climb e r g0 g1 m in (b, Gstep e r (Z.of_nat (S m)) a b)
  end.
Definition upward (e r g0 g1 : R) (n : nat) : R := fst (climb e r g0 g1 n).
Lemma upward_succ e r g0 g1 n : snd (climb e r g0 g1 n) = upward e r g0 g1 (S n).
Proof. unfold upward. cbn [climb]. destruct (climb e r g0 g1 n). reflexivity. Qed.
Lemma upward_step e r g0 g1 n : upward e r g0 g1 (S (S n)) = Gstep e r (Z.of_nat (S n)) (upward e r g0 g1 n) (upward e r g0 g1 (S n)).
Proof. rewrite <- (upward_succ e r g0 g1 (S n)), <- (upward_succ e r g0 g1 n). unfold upward. cbn [climb]. destruct (climb e r g0 g1 n). reflexivity. Qed.
Lemma upward_solves e r g0 g1 : r <> 0 -> solves e r (upward e r g0 g1).
Proof.
  intros Hr. apply relation_solves. intros l Hl. apply relation_G; [exact Hr | exact Hl|]. replace (Z.to_nat (l + 1)) with (S (S (Z.to_nat (l - 1)))) by lia. rewrite upward_step.
  f_equal; f_equal; lia.
Qed.
(** Downwards from X N = 0 and X (N - 1) = c: X (N - n) and X (N - n - 1) *)
Fixpoint descend (e r c : R) (N : nat) (n : nat) : R * R :=
  match n with
  | O => (0, c)
  | S m => let (a, b) := descend e r c N m in (b, Fstep e r (Z.of_nat N - Z.of_nat m - 1) a b)
  end.
Definition downward (e r c : R) (N k : nat) : R := fst (descend e r c N (N - k)).
Lemma downward_end e r c N : downward e r c N N = 0.
Proof. unfold downward. rewrite Nat.sub_diag. reflexivity. Qed.
Lemma descend_snd e r c N n : snd (descend e r c N n) = fst (descend e r c N (S n)).
Proof. cbn [descend]. destruct (descend e r c N n). reflexivity. Qed.
Lemma downward_start e r c N : (1 <= N)%nat -> downward e r c N (N - 1) = c.
Proof. intros H. unfold downward. replace (N - (N - 1))%nat with 1%nat by lia. reflexivity. Qed.
Lemma downward_step e r c N k : (1 <= k)%nat -> (k < N)%nat -> downward e r c N (k - 1) = Fstep e r (Z.of_nat k) (downward e r c N (k + 1)) (downward e r c N k).
Proof.
  intros H1 H2. unfold downward. replace (N - (k - 1))%nat with (S (S (N - (k + 1)))) by lia. replace (N - k)%nat with (S (N - (k + 1))) by lia.
  set (n := (N - (k + 1))%nat). rewrite <- (descend_snd e r c N n). rewrite <- descend_snd. cbn [descend]. destruct (descend e r c N n) as [a b]. cbn [fst snd]. f_equal. lia.
Qed.
Lemma agree e r X Y N : r <> 0 -> solves e r X -> (forall l, (1 <= l)%Z -> (l < N)%Z -> relation e r l (Y (Z.to_nat (l - 1))) (Y (Z.to_nat l)) (Y (Z.to_nat (l + 1)))) ->
  X 0%nat = Y 0%nat -> X 1%nat = Y 1%nat -> forall k, (Z.of_nat k <= N)%Z -> X k = Y k.
Proof.
  intros Hr HX HY E0 E1. enough (H : forall k, (Z.of_nat (S k) <= N)%Z \/ k = 0%nat -> X k = Y k /\ X (S k) = Y (S k)).
  { intros [|k] Hk; [exact E0|]. apply (H k). left. exact Hk. }
  induction k as [|k IH]; [auto|]. intros Hk. destruct (IH ltac:(lia)) as [A B]. split; [exact B|].
  pose proof (solves_relation e r X (Z.of_nat (S k)) HX ltac:(lia)) as RX. pose proof (HY (Z.of_nat (S k)) ltac:(lia) ltac:(lia)) as RY.
  apply relation_G in RX; [|exact Hr | lia]. apply relation_G in RY; [|exact Hr | lia].
  replace (Z.to_nat (Z.of_nat (S k) + 1)) with (S (S k)) in * by lia. replace (Z.to_nat (Z.of_nat (S k) - 1)) with k in * by lia. replace (Z.to_nat (Z.of_nat (S k))) with (S k) in * by lia.
  rewrite RX, RY, A, B. reflexivity.
Qed.
Lemma ending e r c N : r <> 0 -> (1 <= N)%nat -> exists X, solves e r X /\ X N = 0 /\ X (N - 1)%nat = c.
Proof.
  intros Hr HN. exists (upward e r (downward e r c N 0) (downward e r c N 1)). pose proof (upward_solves e r (downward e r c N 0) (downward e r c N 1) Hr) as HS. split; [exact HS|].
  assert (A : forall k, (Z.of_nat k <= Z.of_nat N)%Z -> upward e r (downward e r c N 0) (downward e r c N 1) k = downward e r c N k).
  { apply (agree e r _ _ _ Hr HS); [|reflexivity | reflexivity]. intros l H1 H2. apply relation_F; [exact Hr | exact H1|].
    replace (Z.to_nat (l - 1)) with (Z.to_nat l - 1)%nat by lia. replace (Z.to_nat (l + 1)) with (Z.to_nat l + 1)%nat by lia.
    rewrite downward_step by lia. f_equal. lia. }
  split; [rewrite A by lia; apply downward_end | rewrite A by lia; apply downward_start; exact HN].
Qed.
Lemma solves_scaled e r a X : solves e r X -> solves e r (fun k => X k * a).
Proof. intros H l Hl. specialize (H l Hl). cbv beta. rewrite <- !Rmult_assoc, H. ring. Qed.

(** * The Wronskian *)
Definition casorati (X Y : nat -> R) (e : R) (l : nat) : R := cR e (S l) * (X l * Y (S l) - Y l * X (S l)).
Lemma casorati_step e r X Y l : solves e r X -> solves e r Y -> casorati X Y e (S l) = casorati X Y e l.
Proof.
  intros HX HY. specialize (HX (S l) ltac:(lia)). specialize (HY (S l) ltac:(lia)). cbn [pred] in *. unfold casorati.
  replace (cR e (S (S l)) * (X (S l) * Y (S (S l)) - Y (S l) * X (S (S l)))) with (X (S l) * (cR e (S (S l)) * Y (S (S l))) - Y (S l) * (cR e (S (S l)) * X (S (S l)))) by ring.
  rewrite HX, HY. ring.
Qed.
Lemma casorati_const e r X Y l : solves e r X -> solves e r Y -> casorati X Y e l = casorati X Y e 0.
Proof. intros HX HY. induction l as [|l IH]; [reflexivity|]. rewrite (casorati_step e r X Y l HX HY). exact IH. Qed.
Lemma wronskian_casorati e r X Y l : derived e r X l * Y l - derived e r Y l * X l = casorati X Y e l.
Proof. unfold derived, casorati. ring. Qed.
Lemma cR_pos e l : 0 < cR e (S l).
Proof. unfold cR. pose proof (lt_0_INR (S l) ltac:(lia)). apply Rdiv_lt_0_compat; [apply sqrt_lt_R0; nra | assumption]. Qed.
Lemma cR_1 e : cR e 1 = sqrt (1 + e * e).
Proof. unfold cR. cbn [INR]. rewrite Rmult_1_l. field. Qed.

(** * The loops *)
Definition at_nat {X} (f : nat -> X) (k : Z) : X := f (Z.to_nat k).
Section Loops.
Variables (e r : R).
Hypothesis Hr : r <> 0.

Lemma gLoop_exact fuel G : solves e r G -> forall lmax l a wfn, length wfn = 60%nat -> (1 <= l <= 59)%Z -> (60 - l <= Z.of_nat fuel)%Z ->
  (forall k, (0 <= k <= l)%Z -> exists v, ex_read wfn k = Some (Fin (at_nat G k), v)) ->
  exists l' wfn', gLoop exact fuel lmax l (Fin e) (Fin r) a (Fin (at_nat G (l - 1))) (Fin (at_nat G l)) wfn = Ok (l', wfn') /\ length wfn' = 60%nat /\ (l <= l' <= 59)%Z /\
    (l' = 59 \/ lmax <= l')%Z /\ (forall k, (0 <= k <= l' + 1)%Z -> (k <= 59)%Z -> exists v, ex_read wfn' k = Some (Fin (at_nat G k), v)) /\
    (l' = 59%Z \/ lt (div a (mul (Fin (at_nat G (l' + 1)) : exact) (Fin (at_nat G (l' + 1))))) CRIT_LMAX = true).
Proof.
  intros HG. induction fuel as [|fuel IH]; intros lmax l a wfn L H F Q; [lia|]. cbn [gLoop]. destruct (Z.ltb_spec l 59).
  - rewrite Gfunction_exact by (exact Hr || lia). assert (E : Gstep e r l (at_nat G (l - 1)) (at_nat G l) = at_nat G (l + 1)).
    { symmetry. apply relation_G; [exact Hr | lia|]. apply solves_relation; [exact HG | lia]. }
    rewrite E. match goal with |- context [array_set exact wfn (l + 1) ?v] => destruct (set_total exact wfn (l + 1) v) as (w & -> & Lw & Rw); [lia|] end. cbn [bind].
    assert (Q' : forall k, (0 <= k <= l + 1)%Z -> exists v, ex_read w k = Some (Fin (at_nat G k), v)).
    { intros k Hk. rewrite Rw. destruct (Z.eqb_spec k (l + 1)) as [->|N]; [eexists; reflexivity|]. apply Q. lia. }
    match goal with |- context [if ?b && ?c then _ else _] => destruct (b && c) eqn:B end.
    + exists l, w. apply andb_prop in B as [B1 B]. apply Z.leb_le in B. split; [reflexivity|]. split; [lia|]. split; [lia|]. split; [right; lia|]. split; [intros k Hk _; apply Q'; lia|]. right. exact B1.
    + specialize (IH lmax (l + 1)%Z a w). replace (l + 1 - 1)%Z with l in IH by lia. destruct IH as (l' & w' & -> & Q1 & Q2 & Q3 & Q4 & Q5); [lia | lia | lia | exact Q'|].
      exists l', w'. split; [reflexivity|]. split; [exact Q1|]. split; [lia|]. auto.
  - exists l, wfn. split; [reflexivity|]. split; [exact L|]. split; [lia|]. split; [left; lia|]. split; [|left; lia]. intros k Hk H9. apply Q. lia.
Qed.
Lemma fLoop_exact X : solves e r X -> forall l lmax wfn, (lmax <= 58)%Z -> length wfn = 60%nat ->
  exists wfn', fLoop exact l lmax (Fin e) (Fin r) (Fin (X (S l))) (Fin (X l)) wfn = Ok wfn' /\ length wfn' = 60%nat /\
    forall k, ex_read wfn' k = if ((0 <=? k) && (k <? Z.of_nat l) && (k <=? lmax + 1))%Z then option_map (fun v => (fst v, Fin (at_nat X k) : exact)) (ex_read wfn k) else ex_read wfn k.
Proof.
  intros HX. induction l as [|n IH]; intros lmax wfn H L.
  - exists wfn. split; [reflexivity|]. split; [exact L|]. intros k. destruct (Z.leb_spec 0 k), (Z.ltb_spec k (Z.of_nat 0)); try lia; reflexivity.
  - unfold fLoop; fold (fLoop exact). rewrite Ffunction_exact by (exact Hr || lia).
    assert (E : Fstep e r (Z.of_nat (S n)) (X (S (S n))) (X (S n)) = X n).
    { symmetry. apply relation_F; [exact Hr | lia|]. pose proof (solves_relation e r X (Z.of_nat (S n)) HX ltac:(lia)) as R0.
      replace (Z.to_nat (Z.of_nat (S n) + 1)) with (S (S n)) in R0 by lia. replace (Z.to_nat (Z.of_nat (S n) - 1)) with n in R0 by lia. rewrite Nat2Z.id in R0. exact R0. }
    rewrite E. destruct (Z.leb_spec (Z.of_nat (S n)) (lmax + 2)).
    + destruct (imag_total exact wfn (Z.of_nat n) (Fin (X n))) as (w & v & -> & Lw & Rv & Rw); [lia|]. cbn [bind]. destruct (IH lmax w H ltac:(lia)) as (w' & -> & L' & R').
      exists w'. split; [reflexivity|]. split; [exact L'|]. intros k. rewrite R', Rw. destruct (Z.eqb_spec k (Z.of_nat n)) as [->|N].
      * rewrite Rv. cbn [option_map]. destruct (Z.leb_spec 0 (Z.of_nat n)), (Z.ltb_spec (Z.of_nat n) (Z.of_nat n)), (Z.ltb_spec (Z.of_nat n) (Z.of_nat (S n))), (Z.leb_spec (Z.of_nat n) (lmax + 1)); try lia.
        cbn [andb]. unfold at_nat. rewrite Nat2Z.id. reflexivity.
      * destruct (Z.leb_spec 0 k), (Z.ltb_spec k (Z.of_nat n)), (Z.ltb_spec k (Z.of_nat (S n))), (Z.leb_spec k (lmax + 1)); try lia; reflexivity.
    + cbn [bind]. destruct (IH lmax wfn H L) as (w' & -> & L' & R'). exists w'. split; [reflexivity|]. split; [exact L'|]. intros k. rewrite R'.
      destruct (Z.leb_spec 0 k), (Z.ltb_spec k (Z.of_nat n)), (Z.ltb_spec k (Z.of_nat (S n))), (Z.leb_spec k (lmax + 1)); try lia; reflexivity.
Qed.
Lemma scaleLoop_exact n : forall l (a : exact) wfn, (0 <= l)%Z -> (l + Z.of_nat n <= Z.of_nat (length wfn))%Z ->
  exists wfn', scaleLoop exact n l a wfn = Ok wfn' /\ length wfn' = length wfn /\
    forall k, ex_read wfn' k = if ((l <=? k) && (k <? l + Z.of_nat n))%Z then option_map (fun v => (fst v, mul (snd v) a)) (ex_read wfn k) else ex_read wfn k.
Proof.
  induction n as [|n IH]; intros l a wfn Hl H.
  - exists wfn. split; [reflexivity|]. split; [reflexivity|]. intros k. destruct (Z.leb_spec l k), (Z.ltb_spec k (l + Z.of_nat 0)); try lia; reflexivity.
  - cbn [scaleLoop]. destruct (get_total exact wfn l) as (v & -> & Rv); [lia|]. cbn [bind]. destruct (imag_total exact wfn l (mul (snd v) a)) as (w & v' & -> & Lw & Rv' & Rw); [lia|]. cbn [bind].
    rewrite Rv in Rv'. injection Rv' as <-. destruct (IH (l + 1)%Z a w) as (w' & -> & L' & R'); [lia | lia|]. exists w'. split; [reflexivity|]. split; [lia|]. intros k. rewrite R', Rw.
    destruct (Z.eqb_spec k l) as [->|N].
    + rewrite Rv. destruct (Z.leb_spec (l + 1) l), (Z.leb_spec l l), (Z.ltb_spec l (l + Z.of_nat (S n))); try lia. reflexivity.
    + destruct (Z.leb_spec (l + 1) k), (Z.leb_spec l k), (Z.ltb_spec k (l + 1 + Z.of_nat n)), (Z.ltb_spec k (l + Z.of_nat (S n))); try lia; reflexivity.
Qed.
Lemma Dfunction_exact X l : (0 <= l)%Z -> omDfunction exact l (Fin e) (Fin r) (Fin (at_nat X l)) (Fin (at_nat X (l + 1))) = Fin (derived e r X (Z.to_nat l)).
Proof.
  intros Hl. unfold omDfunction. cbn [exact dec add sub mul div fsqrt ext_dec ext_mul ext_add]. rewrite (div_Fin _ r Hr). cbn [ext_add ext_mul].
  assert (0 < IZR (l + 1)) by (apply IZR_lt; lia). rewrite sqrt_Fin by nra. cbn [ext_mul ext_sub]. change (ext_dec (l + 1) 0) with (Fin (IZR (l + 1))). rewrite div_Fin by lra. f_equal.
  unfold derived, cS, cR, at_nat. rewrite <- !to_nat_succ by lia. rewrite INR_to_nat by lia. field. split; lra.
Qed.
Lemma checkLoop_exact n : forall G F l wfn dfn, (0 <= l)%Z -> (l + Z.of_nat n < Z.of_nat (length wfn))%Z -> length dfn = length wfn ->
  (forall k, (l <= k <= l + Z.of_nat n)%Z -> ex_read wfn k = Some (Fin (at_nat G k), Fin (at_nat F k))) ->
  (forall k, derived e r F k * G k - derived e r G k * F k = 1) ->
  exists dfn', checkLoop exact n l (Fin e) (Fin r) wfn dfn = Ok (false, dfn') /\ length dfn' = length dfn /\
    forall k, ex_read dfn' k = if ((l <=? k) && (k <? l + Z.of_nat n))%Z then Some (Fin (derived e r G (Z.to_nat k)), Fin (derived e r F (Z.to_nat k))) else ex_read dfn k.
Proof.
  intros G F. induction n as [|n IH]; intros l wfn dfn Hl H L Q W.
  - exists dfn. split; [reflexivity|]. split; [reflexivity|]. intros k. destruct (Z.leb_spec l k), (Z.ltb_spec k (l + Z.of_nat 0)); try lia; reflexivity.
  - cbn [checkLoop]. rewrite (proj2 (get_read exact wfn l _) (Q l ltac:(lia))). cbn [bind]. rewrite (proj2 (get_read exact wfn (l + 1) _) (Q (l + 1)%Z ltac:(lia))). cbn [bind fst snd].
    rewrite !Dfunction_exact by exact Hl. match goal with |- context [array_set exact dfn l ?v] => destruct (set_total exact dfn l v) as (d & -> & Ld & Rd); [lia|] end. cbn [bind].
    assert (C : lt CRIT_WRONSK (fabs (mul (Fin (derived e r F (Z.to_nat l)) : exact) (Fin (at_nat G l)) - mul (Fin (derived e r G (Z.to_nat l)) : exact) (Fin (at_nat F l)) - #1)%num) = false).
    { cbn [exact mul sub fabs lt ext_mul ext_sub ext_abs dec ext_dec CRIT_WRONSK ext_lt]. unfold at_nat. rewrite W. replace (1 - 1) with 0 by ring. rewrite Rabs_R0. apply Rltb_false.
      change (10 ^ 6)%Z with 1000000%Z. lra. }
    rewrite C. destruct (IH (l + 1)%Z wfn d) as (d' & -> & L' & R'); [lia | lia | lia | intros k Hk; apply Q; lia | exact W|]. exists d'. split; [reflexivity|]. split; [lia|].
    intros k. rewrite R', Rd. destruct (Z.eqb_spec k l) as [->|N].
    + destruct (Z.leb_spec (l + 1) l), (Z.leb_spec l l), (Z.ltb_spec l (l + Z.of_nat (S n))); try lia. reflexivity.
    + destruct (Z.leb_spec (l + 1) k), (Z.leb_spec l k), (Z.ltb_spec k (l + 1 + Z.of_nat n)), (Z.ltb_spec k (l + Z.of_nat (S n))); try lia; reflexivity.
Qed.

(** The first pass gives a Wronskian of exactly one, whatever the starting values are *)
Lemma passes_exact G lmax wfn dfn : solves e r G -> (0 <= lmax <= 58)%Z -> length wfn = 60%nat -> length dfn = 60%nat ->
  (forall k, (0 <= k <= lmax + 1)%Z -> exists v, ex_read wfn k = Some (Fin (at_nat G k), v)) -> at_nat G (lmax + 11) <> 0 ->
  exists F wfn' dfn', passes exact 11 (lmax + 10) lmax (Fin e) (Fin r) (Fin (G 0%nat)) (Fin (G 1%nat)) wfn dfn = Ok (wfn', dfn') /\
    solves e r F /\ at_nat F (lmax + 11) = 0 /\ (forall k, derived e r F k * G k - derived e r G k * F k = 1) /\ length wfn' = 60%nat /\ length dfn' = 60%nat /\
    (forall k, (0 <= k <= lmax)%Z -> ex_read wfn' k = Some (Fin (at_nat G k), Fin (at_nat F k))) /\
    (forall k, (0 <= k <= lmax)%Z -> ex_read dfn' k = Some (Fin (derived e r G (Z.to_nat k)), Fin (derived e r F (Z.to_nat k)))).
Proof.
  intros HG Hl Lw Ld Q N. set (n := Z.to_nat (lmax + 10)). destruct (ending e r (1 / IZR (10 ^ 36)) (S n) Hr ltac:(lia)) as (X & HX & X0 & X1). replace (S n - 1)%nat with n in X1 by lia.
  set (c := 1 / IZR (10 ^ 36)) in *. assert (Hc : 0 < c) by (unfold c; apply Rdiv_lt_0_compat; [lra | apply IZR_lt; reflexivity]).
  assert (K : casorati X G e 0 = cR e (S n) * (c * G (S n))). { rewrite <- (casorati_const e r X G n HX HG). unfold casorati. rewrite X0, X1. ring. }
  assert (K0 : casorati X G e 0 <> 0).
  { rewrite K. apply Rmult_integral_contrapositive. split; [apply Rgt_not_eq, cR_pos|]. apply Rmult_integral_contrapositive. split; [lra|]. intros Z0. apply N. unfold at_nat. rewrite <- Z0. f_equal. lia. }
  set (w0 := casorati X G e 0) in *.
  cbn [passes]. fold n. destruct (fLoop_exact X HX n lmax wfn ltac:(lia) Lw) as (w1 & E1 & L1 & R1). rewrite X0, X1 in E1.
  change (fLoop exact n lmax (Fin e) (Fin r) #0%num (dec 1 (-36))) with (fLoop exact n lmax (Fin e) (Fin r) (Fin 0) (Fin c)). rewrite E1. cbn [bind].
  assert (R1' : forall k, (0 <= k <= lmax + 1)%Z -> ex_read w1 k = Some (Fin (at_nat G k), Fin (at_nat X k))).
  { intros k Hk. rewrite R1. destruct (Q k Hk) as (v & ->). destruct (Z.leb_spec 0 k), (Z.ltb_spec k (Z.of_nat n)), (Z.leb_spec k (lmax + 1)); try lia. reflexivity. }
  rewrite (proj2 (get_read exact w1 0 _) (R1' 0%Z ltac:(lia))). cbn [bind]. rewrite (proj2 (get_read exact w1 1 _) (R1' 1%Z ltac:(lia))). cbn [bind fst snd].
  set (a := 1 / w0). assert (Ea : (#1 / ((Fin (at_nat X 0) * Fin (G 1%nat) - Fin (G 0%nat) * Fin (at_nat X 1)) * fsqrt (#1 + Fin e * Fin e)) : exact)%num = Fin a).
  { cbn [exact dec ext_dec add mul sub div fsqrt ext_mul ext_sub ext_add]. rewrite sqrt_Fin by nra. cbn [ext_mul]. unfold at_nat. change (Z.to_nat 0) with 0%nat. change (Z.to_nat 1) with 1%nat.
    assert (E : (X 0%nat * G 1%nat - G 0%nat * X 1%nat) * sqrt (1 + e * e) = w0) by (unfold w0, casorati; rewrite cR_1; ring). rewrite E. change (ext_dec 1 0) with (Fin 1). rewrite div_Fin by exact K0. reflexivity. }
  rewrite Ea. destruct (scaleLoop_exact (Z.to_nat (lmax + 2)) 0 (Fin a) w1) as (w2 & -> & L2 & R2); [lia | lia|]. cbn [bind].
  set (F := fun k => X k * a).
  assert (HF : solves e r F) by (apply solves_scaled; exact HX).
  assert (W : forall k, derived e r F k * G k - derived e r G k * F k = 1).
  { intros k. rewrite wronskian_casorati, (casorati_const e r F G k HF HG). replace (casorati F G e 0) with (w0 * a) by (unfold w0, casorati, F; ring). unfold a. field. exact K0. }
  assert (R2' : forall k, (0 <= k <= lmax + 1)%Z -> ex_read w2 k = Some (Fin (at_nat G k), Fin (at_nat F k))).
  { intros k Hk. rewrite R2, R1' by exact Hk. destruct (Z.leb_spec 0 k), (Z.ltb_spec k (0 + Z.of_nat (Z.to_nat (lmax + 2)))); try lia. reflexivity. }
  destruct (checkLoop_exact (Z.to_nat (lmax + 1)) G F 0 w2 dfn) as (d & -> & L3 & R3); [lia | lia | lia | intros k Hk; apply R2'; lia | exact W|]. cbn [bind].
  destruct (Z.ltb_spec 100 (lmax + 10)); [lia|]. exists F, w2, d. split; [reflexivity|]. split; [exact HF|]. split.
  { unfold at_nat, F. replace (Z.to_nat (lmax + 11)) with (S n) by lia. rewrite X0. ring. }
  split; [exact W|]. split; [lia|]. split; [lia|]. split.
  - intros k Hk. apply R2'. lia.
  - intros k Hk. rewrite R3. destruct (Z.leb_spec 0 k), (Z.ltb_spec k (0 + Z.of_nat (Z.to_nat (lmax + 1)))); try lia. reflexivity.
Qed.

Theorem waves_exact l G wfn dfn : solves e r G -> (forall n, (12 <= n <= 69)%nat -> G n <> 0) -> length wfn = 60%nat -> length dfn = 60%nat ->
  exists F wfn' dfn' lmax, omWaves exact l (Fin r) (Fin e) (Fin (G 0%nat)) (Fin (G 1%nat)) wfn dfn = Ok (wfn', dfn') /\ (1 <= lmax <= 58)%Z /\ (l <= 58 -> l <= lmax)%Z /\
    (lmax = 58%Z \/ lt (div (if eqb (Fin e) #0%num then #1%num else fmax (mul (Fin (G 0%nat)) (Fin (G 0%nat))) (mul (Fin (G 1%nat)) (Fin (G 1%nat))))
                        (mul (Fin (at_nat G (lmax + 1)) : exact) (Fin (at_nat G (lmax + 1))))) CRIT_LMAX = true) /\
    solves e r F /\ at_nat F (lmax + 11) = 0 /\ (forall k, derived e r F k * G k - derived e r G k * F k = 1) /\
    (forall k, (0 <= k <= lmax)%Z -> ex_read wfn' k = Some (Fin (at_nat G k), Fin (at_nat F k))) /\
    (forall k, (0 <= k <= lmax)%Z -> ex_read dfn' k = Some (Fin (derived e r G (Z.to_nat k)), Fin (derived e r F (Z.to_nat k)))).
Proof.
  intros HG N Lw Ld. unfold omWaves. match goal with |- context [array_set exact wfn 0 ?v] => destruct (set_total exact wfn 0 v) as (w & -> & L1 & R1); [lia|] end. cbn [bind].
  match goal with |- context [array_set exact w 1 ?v] => destruct (set_total exact w 1 v) as (w' & -> & L2 & R2); [lia|] end. cbn [bind]. cbv zeta.
  match goal with |- context [gLoop exact _ _ _ _ _ ?a _ _ _] => destruct (gLoop_exact 59 G HG l 1 a w') as (l' & w2 & E & L3 & H & D & Q & C); [lia | lia | lia | |] end.
  { intros k Hk. rewrite R2, R1. destruct (Z.eqb_spec k 1) as [->|]; [eexists; reflexivity|]. destruct (Z.eqb_spec k 0) as [->|]; [eexists; reflexivity | lia]. }
  change (at_nat G (1 - 1)) with (G 0%nat) in E. change (at_nat G 1) with (G 1%nat) in E. rewrite E. cbn [bind].
  set (lmax := if (l' =? 59)%Z then (l' - 1)%Z else l'). assert (Hm : (1 <= lmax <= 58)%Z /\ (l <= 58 -> l <= lmax)%Z) by (unfold lmax; destruct (Z.eqb_spec l' 59); lia).
  destruct (passes_exact G lmax w2 dfn HG ltac:(lia) L3 Ld) as (F & wf & df & E' & Q1 & Q2 & Q3 & _ & _ & Q4 & Q5).
  { intros k Hk. apply Q; unfold lmax in *; destruct (Z.eqb_spec l' 59); lia. }
  { apply N. lia. }
  exists F, wf, df, lmax. split; [exact E'|]. split; [lia|]. split; [lia|]. split.
  { unfold lmax. destruct (Z.eqb_spec l' 59); [left; lia|]. destruct C as [C|C]; [contradiction | right; exact C]. }
  split; [exact Q1|]. split; [exact Q2|]. split; [exact Q3|]. split; [exact Q4 | exact Q5].
Qed.
End Loops.
Theorem waves_blind e r l G wfn dfn : r <> 0 -> solves e r G -> (forall n, (12 <= n <= 69)%nat -> G n <> 0) ->
  length wfn = 60%nat -> length dfn = 60%nat ->
  exists F wfn' dfn' lmax, omWaves exact l (Fin r) (Fin e) (Fin (G 0%nat)) (Fin (G 1%nat)) wfn dfn = Ok (wfn', dfn') /\
    (1 <= lmax <= 58)%Z /\ (l <= 58 -> l <= lmax)%Z /\
    solves e r F /\ F (Z.to_nat (lmax + 11)) = 0 /\ (forall k, derived e r F k * G k - derived e r G k * F k = 1) /\
    (forall k, (k <= Z.to_nat lmax)%nat -> nth_error wfn' k = Some (Fin (G k), Fin (F k))) /\
    (forall k, (k <= Z.to_nat lmax)%nat -> nth_error dfn' k = Some (Fin (derived e r G k), Fin (derived e r F k))).
Proof.
  intros Hr HG N Lw Ld. destruct (waves_exact e r Hr l G wfn dfn HG N Lw Ld) as (F & w & d & lmax & E & H1 & H2 & _ & HF & F0 & W & Qw & Qd).
  exists F, w, d, lmax. split; [exact E|]. split; [exact H1|]. split; [exact H2|]. split; [exact HF|]. split; [exact F0|]. split; [exact W|].
  split; intros k Hk; [specialize (Qw (Z.of_nat k) ltac:(lia)) | specialize (Qd (Z.of_nat k) ltac:(lia))]; unfold read, at_nat in *; rewrite Nat2Z.id in *;
    (destruct (Z.ltb_spec (Z.of_nat k) 0); [lia | assumption]).
Qed.
Theorem waves_wronskian l rho eta g f dg df : (0 <= l <= 58)%Z ->
  coulombWaveFunctions exact l rho eta = Ok ((Fin g, Fin f), (Fin dg, Fin df)) ->
  Rabs (df * g - dg * f - 1) <= 1 / 10 ^ 6 \/ (g = 0 /\ f = 0 /\ dg = 0 /\ df = 0).
Proof.
  intros Hl E. pose proof (waves_checked exact l rho eta Hl) as H. rewrite E in H. destruct H as [H|(H1 & H2 & _)].
  - left. unfold checked in H. cbn [fst snd] in H. change (Rltb (1 / IZR (10 ^ 6)) (Rabs (df * g - dg * f - 1)) = false) in H. unfold Rltb in H. destruct (Rlt_dec _ _) as [|n]; [discriminate|].
    apply Rnot_lt_le in n. eapply Rle_trans; [exact n|]. change (10 ^ 6)%Z with 1000000%Z. right. field.
  - right. injection H1 as -> ->. injection H2 as -> ->. auto.
Qed.
