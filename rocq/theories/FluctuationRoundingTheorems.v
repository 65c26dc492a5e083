(** The rounding error of the fluctuation integrals. *)
From Coq Require Import String List ZArith Reals Lra Lia Bool Psatz.
From Flocq Require Import Core.Core Relative IEEE754.BinarySingleNaN.
From Verif Require Import Outcome QuantumModel QuantumSpec KinematicsModel BreitWignerModel UnresolvedModel UnresolvedSpec UnresolvedProofs UnresolvedTheorems
  DoubleModel DoubleProofs RoundingModel RoundingProofs FluctuationRoundingModel FluctuationRoundingSpec FluctuationRoundingProofs FluctuationLiteralProofs.
Import ListNotations.
Open Scope R_scope.

Lemma near_weaken n m lo lo' hi hi' x r : (n <= m)%nat -> (lo' <= lo)%Z -> (hi <= hi')%Z -> near n lo hi x r -> near m lo' hi' x r.
Proof.
  intros L1 L2 L3 H. apply (near_more _ _ _ _ _ _ L1) in H. destruct H as (F & [B1 B2] & V). split; [exact F|]. split; [|exact V].
  pose proof (bpow_le radix2 _ _ L2). pose proof (bpow_le radix2 _ _ L3). lra.
Qed.
Lemma near0_weaken n m lo lo' hi hi' x r : (n <= m)%nat -> (lo' <= lo)%Z -> (hi <= hi')%Z -> near0 n lo hi x r -> near0 m lo' hi' x r.
Proof. intros L1 L2 L3 [H | H]; [left; exact H | right; apply (near_weaken n m lo lo' hi hi'); assumption]. Qed.

Lemma w0 n lo hi x r : near0 n lo hi x r -> (n <= 5)%nat -> (-309 <= lo)%Z -> (hi <= 0)%Z -> near0 5 (-309) 0 x r.
Proof. intros H ? ? ?. apply (near0_weaken n 5 lo (-309) hi 0); assumption. Qed.
Lemma w1 n lo hi x r : near n lo hi x r -> (n <= 5)%nat -> (-210 <= lo)%Z -> (hi <= 210)%Z -> near 5 (-210) 210 x r.
Proof. intros H ? ? ?. apply (near_weaken n 5 lo (-210) hi 210); assumption. Qed.
Definition node (x : double) (r : R) : Prop := near 1 (-10) 7 x r.
Definition node_option (x : option double) (r : option R) : Prop :=
  match x, r with Some x, Some r => node x r | None, None => True | _, _ => False end.
Definition part (x : double) (r : R) : Prop := near0 20 (-600) 300 x r.
Definition parts (x : data double) (r : data R) : Prop :=
  part (d_elastic x) (d_elastic r) /\ part (d_capture x) (d_capture r) /\ part (d_fission x) (d_fission r) /\ part (d_competition x) (d_competition r).

Lemma fdiv_some a b : b <> 0 -> fdiv a b = Some (a / b).
Proof. intros H. unfold fdiv. destruct (Req_EM_T b 0); [contradiction | reflexivity]. Qed.
Lemma zero64 : is_finite (double_of 0) = true /\ B2R (double_of 0) = 0.
Proof. split; reflexivity. Qed.
Lemma part_zero : part (double_of 0) 0.
Proof. left. split; [apply zero64|]. split; [apply zero64 | reflexivity]. Qed.
Lemma one_part q q' r r' F64 F D64 D : node q r -> node q' r' -> near0 5 (-309) 0 F64 F -> near 5 (-210) 210 D64 D ->
  part (div (mult (mult q q') F64) D64) (r * r' * F / D).
Proof.
  intros Hq Hq' HF HD. pose proof (near_mult _ _ _ _ _ _ _ _ _ _ Hq Hq' ltac:(lia) ltac:(lia) ltac:(lia)) as A.
  pose proof (near0_mult _ _ _ _ _ _ _ _ _ _ (or_intror A : near0 _ _ _ _ _) HF ltac:(lia) ltac:(lia) ltac:(lia)) as B.
  pose proof (near0_div _ _ _ _ _ _ _ _ _ _ B HD ltac:(lia) ltac:(lia) ltac:(lia)) as C.
  eapply near0_weaken; [| | |exact C]; lia.
Qed.
Lemma capture_part q r F64 F D64 D : node q r -> near0 5 (-309) 0 F64 F -> near 5 (-210) 210 D64 D ->
  part (div (mult q F64) D64) (r * F / D).
Proof.
  intros Hq HF HD. pose proof (near0_mult _ _ _ _ _ _ _ _ _ _ (or_intror Hq : near0 _ _ _ _ _) HF ltac:(lia) ltac:(lia) ltac:(lia)) as B.
  pose proof (near0_div _ _ _ _ _ _ _ _ _ _ B HD ltac:(lia) ltac:(lia) ltac:(lia)) as C.
  eapply near0_weaken; [| | |exact C]; lia.
Qed.
Lemma term_near F64 F D64 D q r qj rj qk rk : near0 5 (-309) 0 F64 F -> near 5 (-210) 210 D64 D -> node q r -> node_option qj rj -> node_option qk rk ->
  exists t, fluctuation_term F D r rj rk = Some t /\ parts (term64 F64 D64 q qj qk) t.
Proof.
  intros HF HD Hq Hj Hk. pose proof (near_pos _ _ _ _ _ HD) as [PD _]. assert (ND : D <> 0) by lra.
  unfold fluctuation_term, term64. cbv zeta. rewrite !(fdiv_some _ D ND).
  destruct qj as [qj|], rj as [rj|]; cbn [node_option] in Hj; try contradiction; destruct qk as [qk|], rk as [rk|]; cbn [node_option] in Hk; try contradiction;
    rewrite ?(fdiv_some _ D ND); (eexists; split; [reflexivity|]); unfold parts; cbn [d_elastic d_capture d_fission d_competition];
    (split; [apply one_part; assumption|]); (split; [apply capture_part; assumption|]); split; first [exact part_zero | apply one_part; assumption].
Qed.

(** The sum of n terms *)
Definition partial_sum (n : nat) (x : double) (r : R) : Prop := about (20 + n) x r /\ r <= INR n * bpow radix2 300.
Definition sums (n : nat) (x : data double) (r : data R) : Prop :=
  partial_sum n (d_elastic x) (d_elastic r) /\ partial_sum n (d_capture x) (d_capture r) /\ partial_sum n (d_fission x) (d_fission r) /\ partial_sum n (d_competition x) (d_competition r).
Lemma thousand n : (n <= 1000)%nat -> INR n <= 1000.
Proof. intros H. replace 1000 with (INR 1000) by (rewrite INR_IZR_INZ; f_equal). apply le_INR. exact H. Qed.
Lemma sum_step n x r y s : (S n <= 1000)%nat -> partial_sum n x r -> part y s -> partial_sum (S n) (plus x y) (r + s).
Proof.
  intros L [A B] P. pose proof (near0_le _ _ _ _ _ P) as [P1 P2]. assert (S0 : r + s <= INR (S n) * bpow radix2 300) by (rewrite S_INR; lra). split; [|exact S0].
  replace (20 + S n)%nat with (S (Nat.max (20 + n) 20)) by lia. apply about_plus; [exact A | apply (near0_about _ _ _ _ _ P) | lia |].
  apply Rle_trans with (1 := S0). apply Rle_trans with (bpow radix2 10 * bpow radix2 300).
  - apply Rmult_le_compat_r; [apply bpow_ge_0|]. pose proof (thousand (S n) L). change (bpow radix2 10) with 1024. lra.
  - rewrite <- bpow_plus. apply bpow_le. lia.
Qed.
Lemma sums_step n x r y s : (S n <= 1000)%nat -> sums n x r -> parts y s -> sums (S n) (data_add64 x y) (data_add r s).
Proof.
  intros L (A1 & A2 & A3 & A4) (B1 & B2 & B3 & B4). unfold sums, data_add64, data_add. cbn [d_elastic d_capture d_fission d_competition].
  split; [|split; [|split]]; apply sum_step; assumption.
Qed.
Lemma sums_zero : sums 0 (mkData (double_of 0) (double_of 0) (double_of 0) (double_of 0)) (mkData 0 0 0 0).
Proof.
  assert (H : partial_sum 0 (double_of 0) 0). { split; [apply about_zero; apply zero64 | cbn; lra]. }
  unfold sums. cbn [d_elastic d_capture d_fission d_competition]. repeat split; apply H.
Qed.

(** Two loops side by side *)
Lemma loops {A} (f64 : data double -> A -> outcome (data double)) (f : option (data R) -> A -> outcome (option (data R))) c l : forall n a b,
  (n + c * length l <= 1000)%nat ->
  (forall x n a b, In x l -> (n + c <= 1000)%nat -> sums n a b -> exists a' b', f64 a x = Ok a' /\ f (Some b) x = Ok (Some b') /\ sums (n + c) a' b') ->
  sums n a b -> exists a' b', foldM f64 l a = Ok a' /\ foldM f l (Some b) = Ok (Some b') /\ sums (n + c * length l) a' b'.
Proof.
  induction l as [|x l IH]; intros n a b L Hs H.
  - exists a, b. split; [reflexivity|]. split; [reflexivity|]. cbn. rewrite Nat.mul_0_r, Nat.add_0_r. exact H.
  - cbn [length] in *. destruct (Hs x n a b (or_introl eq_refl) ltac:(lia) H) as (a' & b' & E1 & E2 & H').
    destruct (IH (n + c)%nat a' b' ltac:(lia) (fun y k p q Hy => Hs y k p q (or_intror Hy)) H') as (a2 & b2 & E3 & E4 & H2).
    exists a2, b2. cbn [foldM]. rewrite E1, E2. cbn [bind]. split; [exact E3|]. split; [exact E4|]. replace (n + c * S (length l))%nat with (n + c + c * length l)%nat by lia. exact H2.
Qed.
Lemma outer (f64 : data double -> nat -> outcome (data double)) (f : option (data R) -> nat -> outcome (option (data R))) c : (c <= 100)%nat ->
  (forall x n a b, In x ten -> (n + c <= 1000)%nat -> sums n a b -> exists a' b', f64 a x = Ok a' /\ f (Some b) x = Ok (Some b') /\ sums (n + c) a' b') ->
  exists x i n, (n <= 1000)%nat /\ foldM f64 ten (mkData (double_of 0) (double_of 0) (double_of 0) (double_of 0)) = Ok x /\ foldM f ten (Some (mkData 0 0 0 0)) = Ok (Some i) /\ sums n x i.
Proof.
  intros L H. destruct (loops f64 f c ten 0%nat _ _ ltac:(change (length ten) with 10%nat; lia) H sums_zero) as (a & b & E1 & E2 & S). exists a, b. eexists. split; [|split; [exact E1 | split; [exact E2 | exact S]]].
  change (length ten) with 10%nat. lia.
Qed.
Lemma inner (f64 : data double -> nat -> outcome (data double)) (f : option (data R) -> nat -> outcome (option (data R))) c n a b : (n + 10 * c <= 1000)%nat ->
  (forall x n a b, In x ten -> (n + c <= 1000)%nat -> sums n a b -> exists a' b', f64 a x = Ok a' /\ f (Some b) x = Ok (Some b') /\ sums (n + c) a' b') -> sums n a b ->
  exists a' b', foldM f64 ten a = Ok a' /\ foldM f ten (Some b) = Ok (Some b') /\ sums (n + 10 * c) a' b'.
Proof.
  intros L H S. destruct (loops f64 f c ten n a b ltac:(change (length ten) with 10%nat; lia) H S) as (a' & b' & E1 & E2 & S'). exists a', b'. split; [exact E1|]. split; [exact E2|].
  replace (10 * c)%nat with (c * length ten)%nat by (change (length ten) with 10%nat; lia). exact S'.
Qed.
(** Both tables *)
Lemma both n i : (1 <= n <= 4)%nat -> In i ten -> exists p, reads n i p /\ reads64 n i p.
Proof.
  intros Hn. pose proof (reads_rule n Hn) as A. pose proof (tables64 n Hn) as B. revert A B. generalize ten, (chi2_rule n). intros l r A.
  induction A as [|x p l r Hx A IH]; intros B; [intros []|]. inversion B as [|? ? ? ? B1 B2]; subst. intros [<- | Hi]; [exists p; auto | apply IH; assumption].
Qed.

Section Widths.
Variables (w : data double) (d : data nat).
Let v : data R := mkData (B2R (d_elastic w)) (B2R (d_capture w)) (B2R (d_fission w)) (B2R (d_competition w)).
Hypothesis He : ordinary (d_elastic w).
Hypothesis Hc : ordinary_or_zero (d_capture w).

Lemma ordinary_near x : ordinary x -> near 0 (-200) 200 x (B2R x).
Proof. intros [F B]. apply near_exact; [exact F | reflexivity | exact B]. Qed.
Lemma front_near q r : node q r -> near 3 (-210) 208 (plus (mult q (d_elastic w)) (d_capture w)) (r * d_elastic v + d_capture v).
Proof.
  intros Hq. pose proof (near_mult _ _ _ _ _ _ _ _ _ _ Hq (ordinary_near _ He) ltac:(lia) ltac:(lia) ltac:(lia)) as A. cbn [Z.add Nat.add] in A.
  assert (C : about 0 (d_capture w) (d_capture v) /\ d_capture v <= bpow radix2 200).
  { cbn [d_capture v]. destruct Hc as [(F & E) | H]; [rewrite E; split; [apply about_zero; assumption | apply bpow_ge_0]|]. split; [apply (near_about 0 (-200) 200), ordinary_near, H | apply H]. }
  eapply near_weaken; [| | |exact (near_plus_about _ _ _ _ _ _ _ _ _ A (proj1 C) (proj2 C) ltac:(lia) ltac:(lia) ltac:(lia))]; lia.
Qed.
Lemma next_near n hi x y q r G : (n <= 20)%nat -> (207 <= hi <= 400)%Z -> near n (-210) hi x y -> node q r -> ordinary G ->
  near (S (Nat.max n 2)) (-210) (1 + hi) (plus x (mult q G)) (y + r * B2R G).
Proof.
  intros Hn Hh Hx Hq HG. pose proof (near_mult _ _ _ _ _ _ _ _ _ _ Hq (ordinary_near _ HG) ltac:(lia) ltac:(lia) ltac:(lia)) as A. cbn [Z.add Nat.add] in A.
  assert (B : r * B2R G <= bpow radix2 207) by (apply A).
  eapply near_weaken; [| | |exact (near_plus_about _ _ _ _ _ _ _ _ _ Hx (near_about _ _ _ _ _ A) B ltac:(lia) ltac:(lia) ltac:(lia))]; lia.
Qed.
Lemma nonzero_same x : is_finite x = true -> nonzero64 x = nonzero (B2R x).
Proof.
  intros F. unfold nonzero64, nonzero. pose proof (Beqb_correct 53 1024 x (double_of 0) F (proj1 zero64)) as E. rewrite (proj2 zero64) in E. rewrite E.
  destruct (Req_EM_T (B2R x) 0) as [Z | N]; [rewrite Z, Req_bool_true by reflexivity; reflexivity | rewrite Req_bool_false by exact N; reflexivity].
Qed.
Definition usable (G : double) (n : nat) : Prop := is_finite G = true /\ (B2R G <> 0 -> ordinary G /\ (n <= 4)%nat).
Lemma width_column G n : usable G n -> B2R G <> 0 -> (1 <= Nat.max 1 n <= 4)%nat /\
  (if nonzero_degree n then unsigned_pred n else 0%Z) = unsigned_pred (Nat.max 1 n).
Proof.
  intros [_ H] N. destruct (H N) as [_ L]. split; [lia|]. destruct n as [|n]; [reflexivity|]. cbn [nonzero_degree Nat.eqb negb]. f_equal; lia.
Qed.

Lemma integrals_near : (1 <= d_elastic d <= 4)%nat -> usable (d_fission w) (d_fission d) -> usable (d_competition w) (d_competition d) ->
  exists x i n, (n <= 1000)%nat /\ fluctuationIntegrals64 w d = Ok x /\ calculateFluctuationIntegrals v d = Ok (Some i) /\ sums n x i.
Proof.
  intros Hd Hf Hx. unfold fluctuationIntegrals64, calculateFluctuationIntegrals. cbv zeta.
  rewrite (nonzero_same (d_fission w) (proj1 Hf)), (nonzero_same (d_competition w) (proj1 Hx)). change (d_fission v) with (B2R (d_fission w)). change (d_competition v) with (B2R (d_competition w)).
  assert (Q : forall n i, (1 <= n <= 4)%nat -> In i ten -> exists w64 q64 wr qr, entry weights i (unsigned_pred n) = Ok wr /\ entry nodes i (unsigned_pred n) = Ok qr /\
     entry64 weight_literals i (unsigned_pred n) = Ok w64 /\ entry64 node_literals i (unsigned_pred n) = Ok q64 /\ near0 1 (-103) 0 w64 wr /\ node q64 qr).
  { intros n i Hn Hi. destruct (both n i Hn Hi) as ([wr qr] & (A & B) & w64 & q64 & C & D & E & F). exists w64, q64, wr, qr. auto 10. }
  destruct (nonzero (B2R (d_fission w))) eqn:Nf, (nonzero (B2R (d_competition w))) eqn:Nx.
  - assert (Zf : B2R (d_fission w) <> 0) by (intros Z; apply nonzero_0 in Z; rewrite Z in Nf; discriminate). assert (Zx : B2R (d_competition w) <> 0) by (intros Z; apply nonzero_0 in Z; rewrite Z in Nx; discriminate).
    destruct (width_column _ _ Hf Zf) as (Lf & ->). destruct (width_column _ _ Hx Zx) as (Lx & ->). destruct (proj2 Hf Zf) as (Of & _). destruct (proj2 Hx Zx) as (Ox & _).
    apply (outer _ _ 100%nat); [lia|].
    intros i n a b Hi L H. refine (inner _ _ 10%nat n a b _ _ H); [lia|].
    clear a b L H n; intros j n a b Hj L H. refine (inner _ _ 1%nat n a b _ _ H); [lia|].
    clear a b L H n; intros k n a b Hk L H. destruct (Q _ i Hd Hi) as (wi & qi & wir & qir & -> & -> & -> & -> & Wi & Qi). destruct (Q _ j Lf Hj) as (wj & qj & wjr & qjr & -> & -> & -> & -> & Wj & Qj). destruct (Q _ k Lx Hk) as (wk & qk & wkr & qkr & -> & -> & -> & -> & Wk & Qk). cbn [bind].
    pose proof (near0_mult _ _ _ _ _ _ _ _ _ _ Wi Wj ltac:(lia) ltac:(lia) ltac:(lia)) as F1. pose proof (near0_mult _ _ _ _ _ _ _ _ _ _ F1 Wk ltac:(lia) ltac:(lia) ltac:(lia)) as F2.
    pose proof (next_near 3 208 _ _ _ _ _ ltac:(lia) ltac:(lia) (front_near _ _ Qi) Qj Of) as D1. pose proof (next_near 4 209 _ _ _ _ _ ltac:(lia) ltac:(lia) D1 Qk Ox) as D2.
    destruct (term_near _ _ _ _ qi qir (Some qj) (Some qjr) (Some qk) (Some qkr) F2 D2 Qi Qj Qk) as (t & Et & Pt).
    eexists; eexists. split; [reflexivity|]. split; [rewrite Et; reflexivity|]. rewrite Nat.add_1_r. apply sums_step; [lia | exact H | exact Pt].
  - assert (Zf : B2R (d_fission w) <> 0) by (intros Z; apply nonzero_0 in Z; rewrite Z in Nf; discriminate).
    destruct (width_column _ _ Hf Zf) as (Lf & ->). destruct (proj2 Hf Zf) as (Of & _).
    apply (outer _ _ 10%nat); [lia|].
    intros i n a b Hi L H. refine (inner _ _ 1%nat n a b _ _ H); [lia|].
    clear a b L H n; intros j n a b Hj L H. destruct (Q _ i Hd Hi) as (wi & qi & wir & qir & -> & -> & -> & -> & Wi & Qi). destruct (Q _ j Lf Hj) as (wj & qj & wjr & qjr & -> & -> & -> & -> & Wj & Qj). cbn [bind].
    pose proof (near0_mult _ _ _ _ _ _ _ _ _ _ Wi Wj ltac:(lia) ltac:(lia) ltac:(lia)) as F1.
    pose proof (next_near 3 208 _ _ _ _ _ ltac:(lia) ltac:(lia) (front_near _ _ Qi) Qj Of) as D1.
    destruct (term_near _ _ _ _ qi qir (Some qj) (Some qjr) None None (w0 _ _ _ _ _ F1 ltac:(lia) ltac:(lia) ltac:(lia)) (w1 _ _ _ _ _ D1 ltac:(lia) ltac:(lia) ltac:(lia)) Qi Qj I) as (t & Et & Pt).
    eexists; eexists. split; [reflexivity|]. split; [rewrite Et; reflexivity|]. rewrite Nat.add_1_r. apply sums_step; [lia | exact H | exact Pt].
  - assert (Zx : B2R (d_competition w) <> 0) by (intros Z; apply nonzero_0 in Z; rewrite Z in Nx; discriminate).
    destruct (width_column _ _ Hx Zx) as (Lx & ->). destruct (proj2 Hx Zx) as (Ox & _).
    apply (outer _ _ 10%nat); [lia|].
    intros i n a b Hi L H. refine (inner _ _ 1%nat n a b _ _ H); [lia|].
    clear a b L H n; intros j n a b Hj L H. destruct (Q _ i Hd Hi) as (wi & qi & wir & qir & -> & -> & -> & -> & Wi & Qi). destruct (Q _ j Lx Hj) as (wj & qj & wjr & qjr & -> & -> & -> & -> & Wj & Qj). cbn [bind].
    pose proof (near0_mult _ _ _ _ _ _ _ _ _ _ Wi Wj ltac:(lia) ltac:(lia) ltac:(lia)) as F1.
    pose proof (next_near 3 208 _ _ _ _ _ ltac:(lia) ltac:(lia) (front_near _ _ Qi) Qj Ox) as D1.
    destruct (term_near _ _ _ _ qi qir None None (Some qj) (Some qjr) (w0 _ _ _ _ _ F1 ltac:(lia) ltac:(lia) ltac:(lia)) (w1 _ _ _ _ _ D1 ltac:(lia) ltac:(lia) ltac:(lia)) Qi I Qj) as (t & Et & Pt).
    eexists; eexists. split; [reflexivity|]. split; [rewrite Et; reflexivity|]. rewrite Nat.add_1_r. apply sums_step; [lia | exact H | exact Pt].
  - apply (outer _ _ 1%nat); [lia|].
    intros i n a b Hi L H. destruct (Q _ i Hd Hi) as (wi & qi & wir & qir & -> & -> & -> & -> & Wi & Qi). cbn [bind].
    destruct (term_near _ _ _ _ qi qir None None None None (w0 _ _ _ _ _ Wi ltac:(lia) ltac:(lia) ltac:(lia)) (w1 _ _ _ _ _ (front_near _ _ Qi) ltac:(lia) ltac:(lia) ltac:(lia)) Qi I I) as (t & Et & Pt).
    eexists; eexists. split; [reflexivity|]. split; [rewrite Et; reflexivity|]. rewrite Nat.add_1_r. apply sums_step; [lia | exact H | exact Pt].
Qed.
End Widths.
