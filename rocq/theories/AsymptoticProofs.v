(** The asymptotic expansion: what the code adds up, its slope and the equation. *)
From Coq Require Import String List ZArith Reals Bool Lia Lra Psatz.
From Coquelicot Require Import Coquelicot.
From Verif Require Import Outcome ListFacts CoulombWaveModel CoulombWaveSpec CoulombExactModel CoulombExactProofs CoulombRealProofs CoulombMeshProofs NewmarkSpec AsymptoticSpec.
Open Scope R_scope.

(** * The equation *)
Lemma theta_slope eta sigma rho : 0 < rho -> is_derive (theta eta sigma) rho (1 - eta / rho).
Proof. intros H. unfold theta. auto_derive; [lra | field; lra]. Qed.
Lemma turned_slope (a : R -> R) c rho d : is_derive a rho d -> is_derive (fun r => turned (a r) c) rho (d * turned (a rho) (times_i c)).
Proof.
  intros D. unfold turned, times_i. cbn [fst snd]. auto_derive; [split; [eexists; exact D|]; split; [eexists; exact D | exact I]|].
  change (fun x : R => a x) with a. rewrite (is_derive_unique _ _ _ D). ring.
Qed.
Lemma turned_twice angle c : turned angle (times_i (times_i c)) = - turned angle c.
Proof. unfold turned, times_i. cbn [fst snd]. ring. Qed.
Definition part (eta sigma : R) (c : R * R) (k : nat) (rho : R) : R := turned (theta eta sigma rho) c / rho ^ k.
Lemma part_slope eta sigma c k rho : 0 < rho -> is_derive (part eta sigma c k) rho ((1 - eta / rho) * part eta sigma (times_i c) k rho - INR k * part eta sigma c (S k) rho).
Proof.
  intros H. unfold part. pose proof (turned_slope (theta eta sigma) c rho _ (theta_slope eta sigma rho H)) as D. pose proof (pow_lt rho k H) as P.
  set (F := fun r => turned (theta eta sigma r) c) in *. change (is_derive (fun r => F r / r ^ k) rho ((1 - eta / rho) * (turned (theta eta sigma rho) (times_i c) / rho ^ k) - INR k * (F rho / rho ^ S k))). change (is_derive F rho ((1 - eta / rho) * turned (theta eta sigma rho) (times_i c))) in D. clearbody F.
  auto_derive; [split; [eexists; exact D|]; split; [lra | exact I]|]. change (fun x : R => F x) with F. rewrite (is_derive_unique _ _ _ D). cbn [pow]. destruct k; [cbn [INR pow Nat.pred]; field; lra|]. cbn [Nat.pred]. cbn [pow] in P |- *.
  assert (0 < rho ^ k) by (apply pow_lt; exact H). generalize dependent (rho ^ k). intros q _ Hq. field. lra.
Qed.
Lemma sum_derive (F d : nat -> R -> R) N x : (forall k, is_derive (F k) x (d k x)) -> is_derive (fun x => sum_f_R0 (fun k => F k x) N) x (sum_f_R0 (fun k => d k x) N).
Proof. intros H. induction N as [|N IH]; cbn [sum_f_R0]; [apply H|]. apply (is_derive_plus (fun x => sum_f_R0 (fun k => F k x) N)); [exact IH | apply H]. Qed.
Theorem wave_slope eta sigma N rho : 0 < rho -> is_derive (wave eta sigma N) rho (slopes eta N rho (theta eta sigma rho)).
Proof.
  intros H. unfold wave, terms. apply (is_derive_ext (fun r => sum_f_R0 (fun k => part eta sigma (expansion eta k) k r) N)); [reflexivity|].
  pose proof (sum_derive (fun k => part eta sigma (expansion eta k) k) (fun k r => (1 - eta / r) * part eta sigma (times_i (expansion eta k)) k r - INR k * part eta sigma (expansion eta k) (S k) r) N rho) as D. cbv beta in D.
  assert (E : sum_f_R0 (fun k => (1 - eta / rho) * part eta sigma (times_i (expansion eta k)) k rho - INR k * part eta sigma (expansion eta k) (S k) rho) N = slopes eta N rho (theta eta sigma rho)).
  { unfold slopes. apply sum_eq. intros k _. unfold part, Rdiv. ring. }
  rewrite <- E. apply D. intros k. apply part_slope, H.
Qed.
Lemma remainder_step eta sigma k rho : 0 < rho -> let f := part eta sigma (expansion eta k) k rho in let g := part eta sigma (times_i (expansion eta k)) k rho in
  remainder eta sigma k rho = (INR k * (INR k + 1) - eta ^ 2) * f / rho ^ 2 + (2 * INR k + 1) * eta * g / rho ^ 2.
Proof.
  intros H. cbv zeta. unfold remainder, part. cbn [expansion]. unfold multiplier. destruct (expansion eta k) as [s t]. unfold turned, times_i. cbn [fst snd]. rewrite pow_add.
  pose proof (pos_INR k) as K. pose proof (pow_lt rho k H) as P. set (n := INR k) in *. set (q := rho ^ k) in *. clearbody n q. field. lra.
Qed.
Theorem wave_equation eta sigma N rho : 0 < rho ->
  is_derive (fun r => slopes eta N r (theta eta sigma r)) rho (acceleration eta rho (wave eta sigma N rho) + remainder eta sigma N rho).
Proof.
  intros H.
  set (d := fun k r => (1 - eta / r) * part eta sigma (times_i (expansion eta k)) k r - INR k * part eta sigma (expansion eta k) (S k) r).
  set (e := fun k r => let f := part eta sigma (expansion eta k) k r in let g := part eta sigma (times_i (expansion eta k)) k r in
    acceleration eta r f + ((INR k * (INR k + 1) - eta ^ 2) * f / r ^ 2 + (2 * INR k + 1) * eta * g / r ^ 2) - 2 * INR k * g / r).
  assert (D : forall k, is_derive (d k) rho (e k rho)).
  { intros k. unfold d. pose proof (part_slope eta sigma (times_i (expansion eta k)) k rho H) as D1. pose proof (part_slope eta sigma (expansion eta k) (S k) rho H) as D2.
    set (F1 := part eta sigma (times_i (expansion eta k)) k) in *. set (F2 := part eta sigma (expansion eta k) (S k)) in *. change (is_derive (fun r => (1 - eta / r) * F1 r - INR k * F2 r) rho (e k rho)). auto_derive; [split; [lra|]; split; [eexists; exact D1|]; split; [eexists; exact D2 | exact I]|].
    change (fun x : R => F1 x) with F1. change (fun x : R => F2 x) with F2. rewrite (is_derive_unique _ _ _ D1), (is_derive_unique _ _ _ D2). unfold e, F1, F2, part, acceleration. cbv zeta. rewrite turned_twice, S_INR. cbn [pow].
    pose proof (pow_lt rho k H) as P. set (q := rho ^ k) in *. clearbody q. field. lra. }
  apply (is_derive_ext (fun r => sum_f_R0 (fun k => d k r) N)). { intros r. unfold slopes. apply sum_eq. intros k _. unfold d, part, Rdiv. ring. }
  assert (E : sum_f_R0 (fun k => e k rho) N = acceleration eta rho (wave eta sigma N rho) + remainder eta sigma N rho).
  2: { rewrite <- E. apply sum_derive, D. }
  clear D. induction N as [|N IH].
  - cbn [sum_f_R0]. unfold e. cbv zeta. rewrite (remainder_step eta sigma 0 rho H). cbv zeta. unfold wave, terms. cbn [sum_f_R0]. fold (part eta sigma (expansion eta 0) 0 rho). cbn [INR]. field. lra.
  - cbn [sum_f_R0]. rewrite IH. unfold e. cbv zeta. rewrite (remainder_step eta sigma (S N) rho H). cbv zeta. unfold wave, terms. cbn [sum_f_R0]. fold (terms eta N rho (theta eta sigma rho)). fold (part eta sigma (expansion eta (S N)) (S N) rho).
    assert (Q : remainder eta sigma N rho = 2 * INR (S N) * part eta sigma (times_i (expansion eta (S N))) (S N) rho / rho).
    { unfold remainder, part. rewrite S_INR. replace (N + 2)%nat with (S (S N)) by lia. change (rho ^ S (S N)) with (rho * rho ^ S N). pose proof (pow_lt rho (S N) H) as P. set (q := rho ^ S N) in *. clearbody q. field. lra. }
    rewrite Q. unfold acceleration. ring.
Qed.

(** * What the code adds up *)
Section Series.
Variables (ra y : R).
Hypothesis positive : 0 < ra.
Definition zs (k : nat) : R := fst (expansion y k) / ra ^ k.
Definition zt (k : nat) : R := snd (expansion y k) / ra ^ k.
Definition qs (k : nat) : R := - (1 - y / ra) * zt k - INR k * zs k / ra.
Definition qt (k : nat) : R := (1 - y / ra) * zs k - INR k * zt k / ra.
Definition fa (k : nat) : R := IZR (2 * Z.of_nat k + 1) * y / (IZR (2 * (Z.of_nat k + 1)) * ra).
Definition fb (k : nat) : R := (y * y - IZR (Z.of_nat k * (Z.of_nat k + 1))) / (IZR (2 * (Z.of_nat k + 1)) * ra).
Lemma fa_is k : fa k = fst (multiplier y k) / ra /\ fb k = snd (multiplier y k) / ra.
Proof.
  unfold fa, fb, multiplier. cbn [fst snd]. rewrite !mult_IZR, !plus_IZR, !mult_IZR, <- !INR_IZR_INZ. pose proof (pos_INR k). split; field; lra.
Qed.
Lemma zs_next k : fa k * zs k - fb k * zt k = zs (S k) /\ fa k * zt k + fb k * zs k = zt (S k).
Proof.
  destruct (fa_is k) as [-> ->]. unfold zs, zt. cbn [expansion]. destruct (multiplier y k) as [a b]. destruct (expansion y k) as [s t]. cbn [fst snd pow]. pose proof (pow_lt ra k positive) as P. set (q := ra ^ k) in *. clearbody q. split; field; lra.
Qed.
Lemma qs_next k : fa k * qs k - fb k * qt k - zs (S k) / ra = qs (S k) /\ fa k * qt k + fb k * qs k - zt (S k) / ra = qt (S k).
Proof.
  destruct (zs_next k) as [E1 E2]. unfold qs, qt. rewrite <- E1, <- E2, S_INR. split; field; lra.
Qed.
Definition test_small (k : nat) : bool := ext_lt (Fin 1) (Fin (fa k * fa k + fb k * fb k)).
Definition test_same (k : nat) : bool :=
  (ext_lt (ext_abs (ext_sub (Fin 1) (ext_div (Fin (zs (S k))) (Fin (zs k))))) (Fin (1 / IZR (10 ^ 16))) && ext_lt (ext_abs (ext_sub (Fin 1) (ext_div (Fin (qs (S k))) (Fin (qs k))))) (Fin (1 / IZR (10 ^ 16))))%bool.
Fixpoint stop (n k : nat) : nat :=
  match n with
  | O => k
  | S n => if test_small k then k else if test_same k then k else stop n (S k)
  end.
Definition total (f : nat -> R) (N : nat) : exact := Fin (sum_f_R0 f N).
Lemma series_exact n : forall k, asymptoticSeries exact n (Z.of_nat k) (Fin ra) (Fin y) (total zs k) (total zt k) (total qs k) (total qt k) (Fin (zs k)) (Fin (zt k)) (Fin (qs k)) (Fin (qt k)) =
  let N := stop n k in (total zs N, total zt N, total qs N, total qt N).
Proof.
  induction n as [|n IH]; intros k; [reflexivity|]. cbn [asymptoticSeries stop]. norm. change (ext_dec 1 0) with (Fin 1). change (@CRIT_ITER exact) with (Fin (1 / IZR (10 ^ 16))).
  change (ext_dec (2 * (Z.of_nat k + 1)) 0) with (Fin (IZR (2 * (Z.of_nat k + 1)))). change (ext_dec (2 * Z.of_nat k + 1) 0) with (Fin (IZR (2 * Z.of_nat k + 1))). change (ext_dec (Z.of_nat k * (Z.of_nat k + 1)) 0) with (Fin (IZR (Z.of_nat k * (Z.of_nat k + 1)))).
  assert (C : IZR (2 * (Z.of_nat k + 1)) * ra <> 0) by (apply Rmult_integral_contrapositive_currified; [apply not_0_IZR; lia | lra]).
  cbn [ext_mul ext_sub]. rewrite !(div_Fin _ (IZR (2 * (Z.of_nat k + 1)) * ra)) by exact C. fold (fa k) (fb k). cbn [ext_mul ext_add ext_sub]. destruct (zs_next k) as [Z1 Z2]. destruct (qs_next k) as [Q1 Q2]. rewrite Z1, Z2.
  rewrite !(div_Fin _ ra) by lra. cbn [ext_sub]. rewrite Q1, Q2. change (ext_lt (Fin 1) (Fin (fa k * fa k + fb k * fb k))) with (test_small k). destruct (test_small k); [reflexivity|].
  match goal with |- (if ?b then _ else _) = _ => change b with (test_same k) end. destruct (test_same k); [reflexivity|].
  specialize (IH (S k)). rewrite Nat2Z.inj_succ in IH. exact IH.
Qed.
Lemma stop_spec n : forall k, (k <= stop n k <= k + n)%nat /\ (forall j, (k <= j < stop n k)%nat -> test_small j = false) /\
  (stop n k = (k + n)%nat \/ test_small (stop n k) = true \/ test_same (stop n k) = true).
Proof.
  induction n as [|n IH]; intros k; cbn [stop]; [split; [lia|]; split; [intros; lia | left; lia]|].
  destruct (test_small k) eqn:T; [split; [lia|]; split; [intros; lia | right; left; exact T]|]. destruct (test_same k) eqn:U; [split; [lia|]; split; [intros; lia | right; right; exact U]|].
  destruct (IH (S k)) as (A & B & C). split; [lia|]. split; [|destruct C as [C|C]; [left; lia | right; exact C]]. intros j Hj. destruct (Nat.eq_dec j k) as [->|]; [exact T | apply B; lia].
Qed.
Lemma test_small_is k : test_small k = false <-> shrinking y ra k.
Proof.
  unfold test_small, shrinking. cbn [ext_lt]. destruct (fa_is k) as [-> ->]. set (a := fst (multiplier y k)). set (b := snd (multiplier y k)).
  assert (E : a / ra * (a / ra) + b / ra * (b / ra) = (a ^ 2 + b ^ 2) / ra ^ 2) by (field; lra). rewrite E. unfold Rltb. assert (P : 0 < ra ^ 2) by (apply pow_lt; exact positive).
  destruct (Rlt_dec 1 ((a ^ 2 + b ^ 2) / ra ^ 2)) as [L|L]; split; intros H; try discriminate; try reflexivity.
  - exfalso. apply (Rmult_lt_compat_r _ _ _ P) in L. unfold Rdiv in L. rewrite Rmult_assoc, Rinv_l in L by lra. lra.
  - apply Rnot_lt_le in L. apply (Rmult_le_compat_r _ _ _ (Rlt_le _ _ P)) in L. unfold Rdiv in L. rewrite Rmult_assoc, Rinv_l in L by lra. lra.
Qed.
Lemma test_same_is k : test_same k = true -> repeating y ra k.
Proof.
  unfold test_same, repeating. intros T. apply andb_true_iff in T. destruct T as [T _]. fold (zs k). fold (zs (S k)). revert T. unfold ext_div, Reqb. destruct (Req_EM_T (zs k) 0) as [Z|Z].
  - destruct (Req_EM_T (zs (S k)) 0); [discriminate|]. unfold signed. destruct (Rltb 0 (zs (S k))), (Rltb (zs (S k)) 0); discriminate.
  - cbn [ext_sub ext_abs ext_lt]. unfold Rltb. destruct (Rlt_dec _ _) as [L|L]; [intros _ | discriminate].
    replace (zs k - zs (S k)) with ((1 - zs (S k) / zs k) * zs k) by (field; exact Z). rewrite Rabs_mult. apply Rmult_lt_compat_r; [apply Rabs_pos_lt; exact Z|].
    replace (/ 10 ^ 16) with (1 / IZR (10 ^ 16)); [exact L|]. change (10 ^ 16)%Z with 10000000000000000%Z. lra.
Qed.
Lemma stop_last : last_term y ra (stop 100 0).
Proof.
  destruct (stop_spec 100 0) as (A & B & C). split; [intros k Hk; apply test_small_is, B; lia|]. split; [lia|]. destruct C as [C|[C|C]]; [left; exact C | right; left | right; right; apply test_same_is, C].
  intros H. apply test_small_is in H. congruence.
Qed.
End Series.
Lemma turned_0 c : turned 0 c = fst c.
Proof. unfold turned. rewrite cos_0, sin_0. ring. Qed.
Lemma turned_quarter c : turned (- PI / 2) c = snd c.
Proof. unfold turned. replace (- PI / 2) with (- (PI / 2)) by field. rewrite cos_neg, sin_neg, cos_PI2, sin_PI2. ring. Qed.
Lemma sum_turned angle ra y N : 0 < ra ->
  sum_f_R0 (zs ra y) N * cos angle - sum_f_R0 (zt ra y) N * sin angle = terms y N ra angle /\
  sum_f_R0 (qs ra y) N * cos angle - sum_f_R0 (qt ra y) N * sin angle = slopes y N ra angle.
Proof.
  intros H. unfold terms, slopes. rewrite !(Rmult_comm (sum_f_R0 _ N)), !scal_sum, <- !minus_sum. split; apply sum_eq; intros k _; unfold qs, qt, zs, zt, turned, times_i; cbn [fst snd pow]; pose proof (pow_lt ra k H) as P; set (q := ra ^ k) in *; clearbody q; field; lra.
Qed.
Lemma wronskian_is ra y N : 0 < ra -> wronskian y N ra = sum_f_R0 (zs ra y) N * sum_f_R0 (qt ra y) N - sum_f_R0 (qs ra y) N * sum_f_R0 (zt ra y) N.
Proof.
  intros H. unfold wronskian. destruct (sum_turned 0 ra y N H) as [A B]. destruct (sum_turned (- PI / 2) ra y N H) as [C D]. rewrite <- A, <- B, <- C, <- D.
  replace (- PI / 2) with (- (PI / 2)) by field. rewrite cos_neg, sin_neg, cos_PI2, sin_PI2, cos_0, sin_0. ring.
Qed.
Definition sums (ra y : R) (N : nat) : exact * exact * exact * exact := (total (zs ra y) N, total (zt ra y) N, total (qs ra y) N, total (qt ra y) N).
Lemma loop_series fuel : forall iter ra y, 0 < ra -> (0 <= iter)%Z -> Z.of_nat fuel = (101 - iter)%Z -> fuel <> O ->
  let N i := stop (ra + 5 * INR i) y 100 0 in let W i := Rabs (wronskian y (N i) (ra + 5 * INR i) - 1) <= / 1000000 in
  (exists j, (j < fuel)%nat /\ (forall i, (i < j)%nat -> ~ W i) /\ W j /\ asymptoticLoop exact fuel iter (Fin ra) (Fin y) = Ok (Some (sums (ra + 5 * INR j) y (N j)))) \/
  ((forall i, (i < fuel)%nat -> ~ W i) /\ asymptoticLoop exact fuel iter (Fin ra) (Fin y) = Ok None).
Proof.
  induction fuel as [|fuel IH]; intros iter ra y Hra Hi Hf Hn N W; [contradiction|]. cbn [asymptoticLoop]. norm. change (ext_dec 1 0) with (Fin 1). change (ext_dec 0 0) with (Fin 0). change (ext_dec 5 0) with (Fin 5). change (@CRIT_WRONSK exact) with (Fin (1 / IZR (10 ^ 6))).
  rewrite div_Fin by lra. cbn [ext_sub ext_add].
  assert (Z0 : zs ra y 0 = 1 /\ zt ra y 0 = 0) by (unfold zs, zt; cbn; split; field). destruct Z0 as [Z1 Z2].
  assert (Q0 : qs ra y 0 = 0 /\ qt ra y 0 = 1 - y / ra) by (unfold qs, qt; rewrite Z1, Z2; cbn [INR]; split; field; lra). destruct Q0 as [Q1 Q2].
  pose proof (series_exact ra y Hra 100 0) as S. cbv zeta in S. unfold total in S at 1 2 3 4. cbn [sum_f_R0 Z.of_nat] in S. rewrite Z1, Z2, Q1, Q2 in S. rewrite S. clear S.
  assert (E0 : ra + 5 * INR 0 = ra) by (cbn [INR]; ring). set (M := stop ra y 100 0). unfold total.
  cbn [ext_mul ext_sub ext_abs]. rewrite <- (wronskian_is ra y M Hra). change (IZR (10 ^ 6)) with 1000000.
  assert (Le : ext_le (Fin (Rabs (wronskian y M ra - 1))) (Fin (1 / 1000000)) = true <-> W O).
  { unfold W, N. rewrite E0. fold M. unfold ext_le. cbn [ext_lt ext_eq]. unfold Rltb, Reqb. destruct (Rlt_dec _ _); destruct (Req_EM_T _ _); cbn [orb]; split; intros; try reflexivity; try discriminate; lra. }
  destruct (ext_le _ _) eqn:L.
  - left. exists O. split; [lia|]. split; [intros; lia|]. split; [apply Le; reflexivity|]. unfold N. rewrite E0. reflexivity.
  - assert (W0 : ~ W O) by (intros C; apply Le in C; congruence).
    destruct (Z.ltb_spec 100 (iter + 1)) as [B|B]; [right; split; [|reflexivity]; intros i Hi'; replace i with O by lia; exact W0|].
    assert (P : forall i, ra + 5 + 5 * INR i = ra + 5 * INR (S i)) by (intros; rewrite S_INR; ring).
    destruct (IH (iter + 1)%Z (ra + 5) y ltac:(lra) ltac:(lia) ltac:(lia) ltac:(lia)) as [(j & Hj & F & T & E)|(F & E)].
    + left. exists (S j). split; [lia|]. split; [|split].
      * intros [|i] Hi'; [exact W0|]. specialize (F i ltac:(lia)). rewrite P in F. exact F.
      * rewrite P in T. exact T.
      * rewrite E. rewrite P. reflexivity.
    + right. split; [|exact E]. intros [|i] Hi'; [exact W0|]. specialize (F i ltac:(lia)). rewrite P in F. exact F.
Qed.
Theorem case3_exact ra y sig : 0 < ra -> exists N : nat -> nat, let at_ i := ra + 5 * INR i in let accepted i := Rabs (wronskian y (N i) (at_ i) - 1) <= / 1000000 in
  (forall i, last_term y (at_ i) (N i)) /\
  ((exists j, (j <= 100)%nat /\ (forall i, (i < j)%nat -> ~ accepted i) /\ accepted j /\
      omGcase3 exact (Fin ra) (Fin y) (Fin sig) = Ok (Fin (terms y (N j) (at_ j) (theta y sig ra)), Fin (slopes y (N j) (at_ j) (theta y sig ra)))) \/
   ((forall i, (i <= 100)%nat -> ~ accepted i) /\ omGcase3 exact (Fin ra) (Fin y) (Fin sig) = Ok (Fin 0, Fin 0))).
Proof.
  intros H. exists (fun i => stop (ra + 5 * INR i) y 100 0). cbv zeta.
  assert (Pos : forall i, 0 < ra + 5 * INR i) by (intros i; pose proof (pos_INR i); lra).
  split; [intros i; apply stop_last, Pos|].
  assert (Ph : (Fin ra - Fin y * flog (#2 * Fin ra) + Fin sig)%num = (Fin (theta y sig ra) : exact)).
  { norm. change (ext_dec 2 0) with (Fin 2). cbn [ext_mul ext_log]. rewrite Rltb_true by lra. cbn [ext_mul ext_sub ext_add]. reflexivity. }
  destruct (loop_series 101 0 ra y H ltac:(lia) ltac:(lia) ltac:(lia)) as [(j & Hj & F & T & E)|(F & E)].
  - left. exists j. split; [lia|]. split; [exact F|]. split; [exact T|]. unfold omGcase3. rewrite E, Ph. cbn [bind]. unfold sums, total. norm. cbn [finite ext_mul ext_sub].
    destruct (sum_turned (theta y sig ra) (ra + 5 * INR j) y (stop (ra + 5 * INR j) y 100 0) (Pos j)) as [-> ->]. reflexivity.
  - right. split; [intros i Hi; apply F; lia|]. unfold omGcase3. rewrite E. reflexivity.
Qed.
