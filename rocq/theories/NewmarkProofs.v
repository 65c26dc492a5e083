(** Newmark's method in exact arithmetic. *)
From Coq Require Import String List ZArith Reals Bool Lia Lra Psatz.
From Coquelicot Require Import Coquelicot.
From Verif Require Import Outcome ListFacts CoulombWaveModel CoulombWaveSpec CoulombExactModel CoulombExactProofs CoulombRealProofs CoulombMeshProofs NewmarkSpec.
Open Scope R_scope.

(** The next acceleration from the one assumed, and repeatedly *)
Definition next (w c b r : R) : R := w * (c + b * r).
Fixpoint iterate (w c b : R) (k : nat) (r : R) : R := match k with O => r | S k => iterate w c b k (next w c b r) end.
Definition missed (r s : R) : Prop := (s <> 0 /\ / 10000000000 < Rabs (1 - r / s)) \/ (s = 0 /\ / 10000000000 < Rabs (s - r)).
Lemma step_exact fuel : forall itr h y x g0 f0 r0 r1, x <> 0 -> (0 <= itr)%Z -> Z.of_nat fuel = (101 - itr)%Z -> fuel <> O ->
  exists o, newmarkStep exact fuel itr (Fin h) (Fin (h * h)) (Fin (h * h * (1 / 10))) (Fin y) (Fin x) (Fin g0) (Fin f0) (Fin r0) (Fin r1) = Ok o /\
  ((o = None /\ forall k, S (S k) = fuel -> let F k := iterate (y / x - 1) (predicted h g0 f0 r0) (h * h / 10) k r1 in missed (F k) (F (S k))) \/
   exists g1 f1 s1 a, o = Some (Fin g1, Fin f1, Fin s1) /\ s1 = (y / x - 1) * g1 /\ ten_digits a s1 /\ newmark h g0 f0 r0 g1 f1 a).
Proof.
  induction fuel as [|fuel IH]; intros itr h y x g0 f0 r0 r1 Hx Hi Hf Hn; [contradiction|]. cbn [newmarkStep]. norm.
  change (ext_dec 2 0) with (Fin 2). change (ext_dec 1 0) with (Fin 1). change (ext_dec 0 0) with (Fin 0). change (@CRIT_CNVRG exact) with (Fin (1 / IZR (10 ^ 10))).
  cbn [ext_add ext_sub ext_mul]. rewrite !div_Fin by lra. cbn [ext_add ext_sub ext_mul].
  set (f1 := f0 + h * (r0 + r1) / 2). set (g1 := g0 + h * f0 + h * h * r0 / 2 + h * h * (1 / 10) * (r1 - r0)). set (s1 := (y / x - 1) * g1).
  destruct (Z.ltb_spec 100 (itr + 1)) as [L0|L0].
  { exists None. split; [reflexivity|]. left. split; [reflexivity|]. intros k Hk. lia. }
  change (IZR (10 ^ 10)) with 10000000000.
  assert (Es : s1 = next (y / x - 1) (predicted h g0 f0 r0) (h * h / 10) r1) by (unfold s1, g1, next, predicted; f_equal; field).
  assert (D : exists e, (if negb (ext_eq (Fin s1) (Fin 0)) then ext_abs (ext_sub (Fin 1) (ext_div (Fin r1) (Fin s1))) else ext_abs (ext_sub (Fin s1) (Fin r1))) = Fin e /\ (e <= 1 / 10000000000 -> ten_digits r1 s1) /\ (1 / 10000000000 < e -> missed r1 s1)).
  { cbn [ext_eq]. unfold Reqb. destruct (Req_EM_T s1 0) as [Z|Z]; cbn [negb].
    - eexists. split; [reflexivity|]. split; [|intros H; right; split; [exact Z | lra]]. intros H. split; [intros C; contradiction|]. intros _. rewrite Z in H. rewrite Rabs_minus_sym, Rminus_0_r in H. lra.
    - rewrite div_Fin by exact Z. eexists. split; [reflexivity|]. split; [|intros H; left; split; [exact Z | lra]]. intros H. split; [|intros C; contradiction]. intros _.
      replace (r1 - s1) with (- (1 - r1 / s1) * s1) by (field; exact Z). rewrite Rabs_mult, Rabs_Ropp. apply Rmult_le_compat_r; [apply Rabs_pos | lra]. }
  destruct D as (e & D1 & D & D'). match goal with |- context [ext_lt _ ?X] => change X with (if negb (ext_eq (Fin s1) (Fin 0)) then ext_abs (ext_sub (Fin 1) (ext_div (Fin r1) (Fin s1))) else ext_abs (ext_sub (Fin s1) (Fin r1))) end. rewrite D1. cbn [ext_lt]. unfold Rltb. destruct (Rlt_dec (1 / 10000000000) e) as [L|L].
  - destruct (IH (itr + 1)%Z h y x g0 f0 r0 s1 Hx ltac:(lia) ltac:(lia) ltac:(lia)) as (o & E & H). exists o. split; [exact E|].
    destruct H as [[N H]|H]; [left; split; [exact N|] | right; exact H]. intros [|k] Hk; cbv zeta.
    + cbn [iterate]. rewrite <- Es. apply D', L.
    + specialize (H k ltac:(lia)). cbv zeta in H. cbn [iterate] in *. rewrite <- Es. exact H.
  - eexists. split; [reflexivity|]. right. exists g1, f1, s1, r1. split; [reflexivity|]. split; [reflexivity|]. split; [apply D; lra|]. split; [unfold f1; field | unfold g1; field].
Qed.
Lemma iterate_gap w c b k : forall r, iterate w c b (S k) r - iterate w c b k r = (w * b) ^ k * (next w c b r - r).
Proof.
  induction k as [|k IH]; intros r; [cbn [iterate pow]; ring|]. cbn [iterate] in *. rewrite IH. unfold next. cbn [pow]. ring.
Qed.
Lemma iterate_next w c b k : forall r, iterate w c b (S k) r = next w c b (iterate w c b k r).
Proof. induction k as [|k IH]; intros r; [reflexivity|]. cbn [iterate] in *. apply IH. Qed.
(** The iteration fails to converge only if the acceleration all but vanishes *)
Lemma missed_small w c b a : Rabs (w * b) <= / 10 -> (let F k := iterate w c b k a in missed (F 99%nat) (F 100%nat)) -> a <> 0 /\ w <> 0 /\ Rabs (w * c) <= / 10 ^ 80 * Rabs a.
Proof.
  intros Hq. cbv zeta. pose proof (iterate_gap w c b 99 a) as G. pose proof (iterate_next w c b 99 a) as N.
  set (r := iterate w c b 99 a) in *. set (s := iterate w c b 100 a) in *. intros M.
  assert (Q : Rabs ((w * b) ^ 99) <= / 10 ^ 99) by (rewrite <- RPow_abs, <- pow_inv; apply pow_incr; split; [apply Rabs_pos | exact Hq]).
  set (t := / 10 ^ 99) in *. assert (T : / 10 ^ 80 = 10 ^ 19 * t) by (unfold t; change 99%nat with (80 + 19)%nat; rewrite pow_add; field; lra).
  assert (Tp : 0 < t) by (apply Rinv_0_lt_compat, pow_lt; lra). assert (T1 : t <= / 10 ^ 20) by (apply Rinv_le_contravar; [apply pow_lt; lra | apply Rle_pow; [lra | lia]]).
  set (D := Rabs (next w c b a - a)). assert (Gs : Rabs (s - r) <= t * D) by (rewrite G, Rabs_mult; apply Rmult_le_compat_r; [apply Rabs_pos | exact Q]).
  assert (HD : D <= Rabs (w * c) + 11 / 10 * Rabs a).
  { unfold D, next. replace (w * (c + b * a) - a) with (w * c + (w * b * a + - a)) by ring. eapply Rle_trans; [apply Rabs_triang|]. apply Rplus_le_compat_l. eapply Rle_trans; [apply Rabs_triang|]. rewrite Rabs_Ropp, Rabs_mult. pose proof (Rmult_le_compat_r (Rabs a) _ _ (Rabs_pos a) Hq). lra. }
  assert (Hs : Rabs s <= 10000000000 * (t * D) /\ s - r <> 0).
  { destruct M as [[Z M]|[Z M]].
    - assert (P : Rabs (s - r) = Rabs (1 - r / s) * Rabs s) by (rewrite <- Rabs_mult; f_equal; field; exact Z). pose proof (Rabs_pos_lt s Z). split.
      + assert (/ 10000000000 * Rabs s <= Rabs (1 - r / s) * Rabs s) by (apply Rmult_le_compat_r; lra). lra.
      + intros C. rewrite C, Rabs_R0 in P. assert (/ 10000000000 * Rabs s <= Rabs (1 - r / s) * Rabs s) by (apply Rmult_le_compat_r; lra). lra.
    - split; [rewrite Z, Rabs_R0; pose proof (Rabs_pos (s - r)); lra|]. intros C. rewrite C, Rabs_R0 in M. lra. }
  destruct Hs as [Hs Hne].
  assert (Hw : Rabs (w * c) <= 20000000000 * (t * D)).
  { replace (w * c) with (s + - (w * b * r)) by (unfold next in N; rewrite N; ring). eapply Rle_trans; [apply Rabs_triang|]. rewrite Rabs_Ropp, Rabs_mult.
    assert (R : Rabs r <= Rabs s + Rabs (s - r)) by (replace r with (s + - (s - r)) at 1 by ring; eapply Rle_trans; [apply Rabs_triang|]; rewrite Rabs_Ropp; lra).
    pose proof (Rmult_le_compat _ _ _ _ (Rabs_pos (w * b)) (Rabs_pos r) Hq (Rle_refl (Rabs r))).
    assert (0 <= t * D) by (apply Rmult_le_pos; [lra | apply Rabs_pos]). lra. }
  assert (HX : Rabs (w * c) <= 30000000000 * t * Rabs a).
  { pose proof (Rmult_le_compat_l t _ _ (Rlt_le _ _ Tp) HD) as E. rewrite Rmult_plus_distr_l in E. pose proof (Rabs_pos (w * c)).
    assert (T2 : t * Rabs (w * c) <= / 10 ^ 20 * Rabs (w * c)) by (apply Rmult_le_compat_r; lra).
    assert (T3 : 20000000000 * / 10 ^ 20 <= / 10) by lra.
    assert (20000000000 * (/ 10 ^ 20 * Rabs (w * c)) <= / 10 * Rabs (w * c)) by (rewrite <- Rmult_assoc; apply Rmult_le_compat_r; assumption).
    assert (0 <= t * Rabs a) by (apply Rmult_le_pos; [lra | apply Rabs_pos]). lra. }
  split; [|split].
  - intros Z. rewrite Z, Rabs_R0, Rmult_0_r in HX. assert (X : w * c = 0) by (destruct (Req_dec (w * c) 0); [assumption | pose proof (Rabs_pos_lt (w * c) ltac:(assumption)); lra]).
    apply Hne. rewrite G, Z. unfold next. rewrite Rmult_0_r, Rplus_0_r, X. ring.
  - intros Z. apply Hne. rewrite N. unfold r. rewrite iterate_next. unfold next. rewrite Z. ring.
  - rewrite T. assert (0 <= t * Rabs a) by (apply Rmult_le_pos; [lra | apply Rabs_pos]). lra.
Qed.
Definition position (x h : R) (i : Z) : R := x + IZR i * h.
Record steps (y x h p0 p1 : R) (i : Z) (n : nat) (g f : nat -> R) : Prop := Steps
  { st_start : g O = p0 /\ f O = p1;
    st_step : forall j, (j < n)%nat -> exists a1,
      ten_digits a1 ((y / position x h (i + Z.of_nat j) - 1) * g (S j)) /\
      newmark h (g j) (f j) ((y / position x h (i + Z.of_nat j - 1) - 1) * g j) (g (S j)) (f (S j)) a1 }.
Lemma steps_none y x h p0 p1 i : steps y x h p0 p1 i 0 (fun _ => p0) (fun _ => p1).
Proof. split; [split; reflexivity | intros; lia]. Qed.
Lemma steps_cons y x h p0 p1 i n g f a1 : steps y x h (g O) (f O) (i + 1) n g f ->
  ten_digits a1 ((y / position x h i - 1) * g O) -> newmark h p0 p1 ((y / position x h (i - 1) - 1) * p0) (g O) (f O) a1 ->
  steps y x h p0 p1 i (S n) (fun k => match k with O => p0 | S k => g k end) (fun k => match k with O => p1 | S k => f k end).
Proof.
  intros [_ S] T N. split; [split; reflexivity|]. intros [|j] Hj.
  - exists a1. cbn [Z.of_nat]. rewrite Z.add_0_r. split; assumption.
  - destruct (S j ltac:(lia)) as (a2 & T2 & N2). exists a2. replace (i + Z.of_nat (Datatypes.S j))%Z with (i + 1 + Z.of_nat j)%Z by lia. split; assumption.
Qed.
Lemma loop_exact n : forall i h y x p0 p1, (forall k, (i <= k < i + Z.of_nat n)%Z -> position x h k <> 0) ->
  let r0 := Fin ((y / position x h (i - 1) - 1) * p0) in
  exists a b, newmarkLoop exact n i (Fin h) (Fin (h * h)) (Fin (h * h * (1 / 10))) (Fin y) (Fin x) (Fin p0) (Fin p1) r0 r0 = Ok (a, b) /\
  ((exists g f, steps y x h p0 p1 i n g f /\ a = Fin (g n) /\ b = Fin (f n)) \/
   (a = Fin 0 /\ b = Fin 0 /\ ((forall k, (i <= k < i + Z.of_nat n)%Z -> h * h * Rabs (y / position x h k - 1) <= 1) ->
     exists k g f, (k < n)%nat /\ steps y x h p0 p1 i k g f /\
     let a0 := (y / position x h (i + Z.of_nat k - 1) - 1) * g k in let w := y / position x h (i + Z.of_nat k) - 1 in
     a0 <> 0 /\ w <> 0 /\ Rabs (w * predicted h (g k) (f k) a0) <= / 10 ^ 80 * Rabs a0))).
Proof.
  induction n as [|n IH]; intros i h y x p0 p1 Hx r0.
  - exists (Fin p0), (Fin p1). split; [reflexivity|]. left. exists (fun _ => p0), (fun _ => p1). split; [apply steps_none | split; reflexivity].
  - cbn [newmarkLoop]. norm. change (ext_dec i 0) with (Fin (IZR i)). cbn [ext_mul ext_add]. unfold r0.
    destruct (step_exact 101 0 h y (position x h i) p0 p1 ((y / position x h (i - 1) - 1) * p0) ((y / position x h (i - 1) - 1) * p0) (Hx i ltac:(lia)) ltac:(lia) ltac:(lia) ltac:(lia)) as (o & E & H).
    change (x + IZR i * h) with (position x h i). rewrite E. cbn [bind].
    destruct H as [[-> H]|(g1 & f1 & s1 & a1 & -> & Es & T & N)].
    + exists (Fin 0), (Fin 0). split; [reflexivity|]. right. split; [reflexivity|]. split; [reflexivity|]. intros Q. exists O, (fun _ => p0), (fun _ => p1). split; [lia|]. split; [apply steps_none|].
      cbv zeta. cbn [Z.of_nat]. rewrite !Z.add_0_r. apply (missed_small _ _ (h * h / 10)).
      * specialize (Q i ltac:(lia)). rewrite Rabs_mult, (Rabs_pos_eq (h * h / 10)) by nra. nra.
      * apply (H 99%nat eq_refl).
    + subst s1. assert (P : position x h i = position x h (i + 1 - 1)) by (f_equal; lia).
      destruct (IH (i + 1)%Z h y x g1 f1 ltac:(intros; apply Hx; lia)) as (a & b & E2 & H). exists a, b. split; [rewrite P; exact E2|].
      destruct H as [(g & f & S & Ea & Eb)|(Ea & Eb & H)].
      * left. exists (fun k => match k with O => p0 | Datatypes.S k => g k end), (fun k => match k with O => p1 | Datatypes.S k => f k end). split; [|split; [exact Ea | exact Eb]]. pose proof (st_start _ _ _ _ _ _ _ _ _ S) as [G0 F0]. subst g1 f1. eapply steps_cons; [exact S | exact T | exact N].
      * right. split; [exact Ea|]. split; [exact Eb|]. intros Q. destruct (H ltac:(intros; apply Q; lia)) as (k & g & f & Hk & S & V).
        exists (Datatypes.S k). exists (fun k => match k with O => p0 | Datatypes.S k => g k end), (fun k => match k with O => p1 | Datatypes.S k => f k end). split; [lia|]. pose proof (st_start _ _ _ _ _ _ _ _ _ S) as [G0 F0]. subst g1 f1. split; [eapply steps_cons; [exact S | exact T | exact N]|].
        replace (i + Z.of_nat (Datatypes.S k))%Z with (i + 1 + Z.of_nat k)%Z by lia. exact V.
Qed.
Theorem newmark_exact n h eta x p0 p1 : (0 <= n)%Z -> (forall k, (k <= Z.to_nat n)%nat -> x - INR k * h <> 0) ->
  exists a b, omNewmark exact n (Fin h) (Fin eta) (Fin x) (Fin p0) (Fin p1) = Ok (a, b) /\
  ((exists g f, integration eta x h p0 p1 (Z.to_nat n) g f /\ a = Fin (g (Z.to_nat n)) /\ b = Fin (f (Z.to_nat n))) \/
   (a = Fin 0 /\ b = Fin 0 /\ ((forall k, (k <= Z.to_nat n)%nat -> h ^ 2 * Rabs (2 * eta / (x - INR k * h) - 1) <= 1) -> vanishing eta x h p0 p1 (Z.to_nat n)))).
Proof.
  intros Hn Hx. pose proof (Hx O ltac:(lia)) as Hx0. cbn [INR] in Hx0. rewrite Rmult_0_l, Rminus_0_r in Hx0.
  unfold omNewmark. norm. change (ext_dec 2 0) with (Fin 2). change (ext_dec 1 0) with (Fin 1). change (@BETA exact) with (Fin (1 / 10)). cbn [ext_opp ext_mul]. rewrite div_Fin by exact Hx0. cbn [ext_sub ext_mul].
  assert (P : forall k : nat, position x (- h) (Z.of_nat k) = x - INR k * h) by (intros k; unfold position; rewrite <- INR_IZR_INZ; ring).
  assert (P1 : forall i, (1 + Z.of_nat i)%Z = Z.of_nat (S i)) by (intros; lia). assert (P2 : forall i, (1 + Z.of_nat i - 1)%Z = Z.of_nat i) by (intros; lia).
  assert (I : forall k g f, steps (eta * 2) x (- h) p0 p1 1 k g f -> integration eta x h p0 p1 k g f).
  { intros k g f [S0 S]. split; [exact S0|]. intros i Hi. destruct (S i Hi) as (a1 & T & N). exists a1. unfold acceleration. rewrite P1, P in T. rewrite P2, P in N. rewrite (Rmult_comm eta) in T, N. split; assumption. }
  assert (Z0 : forall k, (1 <= k < 1 + Z.of_nat (Z.to_nat n))%Z -> exists j, (j <= Z.to_nat n)%nat /\ position x (- h) k = x - INR j * h) by (intros k Hk; exists (Z.to_nat k); split; [lia | rewrite <- P; f_equal; lia]).
  destruct (loop_exact (Z.to_nat n) 1 (- h) (eta * 2) x p0 p1) as (a & b & E & H); [intros k Hk; destruct (Z0 k Hk) as (j & Hj & ->); apply Hx; exact Hj|].
  change (1 - 1)%Z with 0%Z in E. replace (position x (- h) 0) with x in E by (unfold position; ring). exists a, b. split; [exact E|].
  destruct H as [(g & f & S & Ea & Eb)|(Ea & Eb & H)]; [left; exists g, f; split; [apply I; exact S | split; assumption]|].
  right. split; [exact Ea|]. split; [exact Eb|]. intros Q. destruct H as (k & g & f & Hk & S & V).
  { intros k Hk; destruct (Z0 k Hk) as (j & Hj & ->). specialize (Q j Hj). rewrite (Rmult_comm eta). replace (- h * - h) with (h ^ 2) by ring. exact Q. }
  exists k, g, f. split; [exact Hk|]. split; [apply I; exact S|]. cbv zeta in V |- *. rewrite P2, P1, !P, (Rmult_comm eta) in V. destruct V as (V1 & V2 & V3). split; [exact V1|]. split; [intros C; apply V2; rewrite C; ring | exact V3].
Qed.
