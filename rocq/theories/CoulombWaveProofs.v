(** The Coulomb wave functions: bounds, termination and the check, in any arithmetic. *)
From Coq Require Import String List ZArith Bool Lia.
From Verif Require Import Outcome ListFacts CoulombWaveModel CoulombWaveSpec.
Import ListNotations.

Section Any.
Variable A : arithmetic.
Notation cell := (pair_of A).

(** * Arrays *)
Definition read (a : list cell) (l : Z) : option cell := if (l <? 0)%Z then None else nth_error a (Z.to_nat l).
Lemma get_read a l v : array_get A a l = Ok v <-> read a l = Some v.
Proof.
  unfold array_get, read, at_or_ub. destruct (l <? 0)%Z; [split; discriminate|]. destruct (nth_error a (Z.to_nat l)); split; intros H; try discriminate; injection H as <-; reflexivity.
Qed.
Lemma read_some a l : (0 <= l < Z.of_nat (length a))%Z -> exists v, read a l = Some v.
Proof.
  intros H. unfold read. destruct (Z.ltb_spec l 0); [lia|]. destruct (nth_error a (Z.to_nat l)) eqn:E; [eauto|]. apply nth_error_None in E. lia.
Qed.
Lemma get_total a l : (0 <= l < Z.of_nat (length a))%Z -> exists v, array_get A a l = Ok v /\ read a l = Some v.
Proof. intros H. destruct (read_some a l H) as (v & E). exists v. split; [apply get_read|]; exact E. Qed.
Lemma get_out a l : ~ (0 <= l < Z.of_nat (length a))%Z -> array_get A a l = UB "array index out of bounds".
Proof.
  intros H. unfold array_get, at_or_ub. destruct (Z.ltb_spec l 0); [reflexivity|]. destruct (nth_error a (Z.to_nat l)) eqn:E; [|reflexivity].
  assert (Z.to_nat l < length a)%nat by (apply nth_error_Some; congruence). lia.
Qed.
Lemma nth_update {X} (a : list X) i x j : (i < length a)%nat ->
  nth_error (firstn i a ++ x :: skipn (S i) a) j = if Nat.eqb j i then Some x else nth_error a j.
Proof.
  revert i j. induction a as [|y a IH]; intros i j H; [cbn in H; lia|]. destruct i as [|i], j as [|j]; cbn; try reflexivity. apply IH. cbn in H. lia.
Qed.
Lemma length_update {X} (a : list X) i x : (i < length a)%nat -> length (firstn i a ++ x :: skipn (S i) a) = length a.
Proof. intros H. rewrite app_length, firstn_length. cbn [length]. rewrite skipn_length. lia. Qed.
Lemma set_total a l x : (0 <= l < Z.of_nat (length a))%Z -> exists a', array_set A a l x = Ok a' /\ length a' = length a /\
  forall k, read a' k = if (k =? l)%Z then Some x else read a k.
Proof.
  intros H. destruct (get_total a l H) as (v & E & _). unfold array_set. rewrite E. cbn [bind]. eexists. split; [reflexivity|]. split; [apply length_update; lia|].
  intros k. unfold read. destruct (Z.eqb_spec k l) as [->|N].
  - destruct (Z.ltb_spec l 0); [lia|]. rewrite nth_update by lia. rewrite Nat.eqb_refl. reflexivity.
  - destruct (Z.ltb_spec k 0); [reflexivity|]. rewrite nth_update by lia. destruct (Nat.eqb_spec (Z.to_nat k) (Z.to_nat l)); [lia | reflexivity].
Qed.
Lemma imag_total a l x : (0 <= l < Z.of_nat (length a))%Z -> exists a' v, array_imag A a l x = Ok a' /\ length a' = length a /\ read a l = Some v /\
  forall k, read a' k = if (k =? l)%Z then Some (fst v, x) else read a k.
Proof.
  intros H. destruct (get_total a l H) as (v & E & Rv). unfold array_imag. rewrite E. cbn [bind]. destruct (set_total a l (fst v, x) H) as (a' & E' & L & Rd).
  exists a', v. auto.
Qed.

(** * The loops *)
Lemma gLoop_total fuel : forall lmax l eta rho a p1 p2 wfn, length wfn = 60%nat -> (1 <= l <= 59)%Z -> (60 - l <= Z.of_nat fuel)%Z ->
  exists l' wfn', gLoop A fuel lmax l eta rho a p1 p2 wfn = Ok (l', wfn') /\ length wfn' = 60%nat /\ (l <= l' <= 59)%Z /\ (l' = 59 \/ lmax <= l')%Z.
Proof.
  induction fuel as [|fuel IH]; intros lmax l eta rho a p1 p2 wfn L H F; [lia|]. cbn [gLoop]. destruct (Z.ltb_spec l 59).
  - destruct (set_total wfn (l + 1) (omGfunction A l eta rho p1 p2, #0)%num) as (w & -> & Lw & _); [lia|]. cbn [bind].
    destruct (lt (a / _)%num CRIT_LMAX && (lmax <=? l)%Z) eqn:B.
    + exists l, w. apply andb_prop in B as [_ B]. apply Z.leb_le in B. repeat split; try lia. 
    + destruct (IH lmax (l + 1)%Z eta rho a p2 (omGfunction A l eta rho p1 p2) w) as (l' & w' & -> & Q); [lia | lia | lia|]. exists l', w'. split; [reflexivity|]. intuition lia.
  - exists l, wfn. repeat split; lia.
Qed.
Lemma fLoop_total l : forall lmax eta rho p1 p2 wfn, (lmax <= 58)%Z -> length wfn = 60%nat ->
  exists wfn', fLoop A l lmax eta rho p1 p2 wfn = Ok wfn' /\ length wfn' = 60%nat.
Proof.
  induction l as [|k IH]; intros lmax eta rho p1 p2 wfn H L; [exists wfn; auto|]. unfold fLoop; fold (fLoop A).
  destruct (Z.leb_spec (Z.of_nat (S k)) (lmax + 2)).
  - destruct (imag_total wfn (Z.of_nat k) (omFfunction A (Z.of_nat (S k)) eta rho p1 p2)) as (w & v & -> & Lw & _); [lia|]. cbn [bind]. apply IH; lia.
  - cbn [bind]. apply IH; assumption.
Qed.
Lemma scaleLoop_total n : forall l a wfn, (0 <= l)%Z -> (l + Z.of_nat n <= Z.of_nat (length wfn))%Z ->
  exists wfn', scaleLoop A n l a wfn = Ok wfn' /\ length wfn' = length wfn.
Proof.
  induction n as [|n IH]; intros l a wfn Hl H; [exists wfn; auto|]. cbn [scaleLoop]. destruct (get_total wfn l) as (v & -> & _); [lia|]. cbn [bind].
  destruct (imag_total wfn l (snd v * a)%num) as (w & v' & -> & Lw & _); [lia|]. cbn [bind]. destruct (IH (l + 1)%Z a w) as (w' & -> & L'); [lia | lia|]. exists w'. split; [reflexivity | lia].
Qed.
Lemma checkLoop_total n : forall l eta rho wfn dfn, (0 <= l)%Z -> (l + Z.of_nat n < Z.of_nat (length wfn))%Z -> length dfn = length wfn ->
  exists failed dfn', checkLoop A n l eta rho wfn dfn = Ok (failed, dfn') /\ length dfn' = length dfn /\ (forall k, (k < l)%Z -> read dfn' k = read dfn k) /\
    (failed = false -> forall k, (l <= k < l + Z.of_nat n)%Z -> exists v d, read wfn k = Some v /\ read dfn' k = Some d /\ checked v d) /\
    (forall k, (l + Z.of_nat n <= k)%Z -> read dfn' k = read dfn k).
Proof.
  induction n as [|n IH]; intros l eta rho wfn dfn Hl H L; cbn [checkLoop].
  - exists false, dfn. repeat split; intros; lia || reflexivity.
  - destruct (get_total wfn l) as (v & -> & Rv); [lia|]. cbn [bind]. destruct (get_total wfn (l + 1)%Z) as (v1 & -> & _); [lia|]. cbn [bind].
    set (d := (omDfunction A l eta rho (fst v) (fst v1), omDfunction A l eta rho (snd v) (snd v1))).
    destruct (set_total dfn l d) as (dfn1 & -> & L1 & R1); [lia|]. cbn [bind].
    destruct (lt CRIT_WRONSK (fabs (snd d * fst v - fst d * snd v - #1)%num)) eqn:C; cbn [d fst snd] in C; rewrite C.
    + exists true, dfn1. split; [reflexivity|]. split; [exact L1|]. split; [|split; [discriminate|]]; intros k Hk; rewrite R1; destruct (Z.eqb_spec k l); try lia; reflexivity.
    + destruct (IH (l + 1)%Z eta rho wfn dfn1) as (failed & dfn' & -> & L' & B & Q & Ab); [lia | lia | lia|]. exists failed, dfn'. split; [reflexivity|]. split; [lia|]. split; [|split].
      * intros k Hk. rewrite B by lia. rewrite R1. destruct (Z.eqb_spec k l); [lia | reflexivity].
      * intros Ff k Hk. destruct (Z.eq_dec k l) as [->|N].
        -- exists v, d. split; [exact Rv|]. split; [|exact C]. rewrite B by lia. rewrite R1, Z.eqb_refl. reflexivity.
        -- apply Q; [exact Ff | lia].
      * intros k Hk. rewrite Ab by lia. rewrite R1. destruct (Z.eqb_spec k l); [lia | reflexivity].
Qed.
Lemma passes_total fuel : forall l0 lmax eta rho g0 g1 wfn dfn, (0 <= lmax <= 58)%Z -> length wfn = 60%nat -> length dfn = 60%nat ->
  (0 < fuel)%nat -> (110 < l0 + 10 * Z.of_nat fuel)%Z -> (l0 <= 100)%Z ->
  passes A fuel l0 lmax eta rho g0 g1 wfn dfn = Throw (RuntimeError "std::exception") \/
  exists wfn' dfn', passes A fuel l0 lmax eta rho g0 g1 wfn dfn = Ok (wfn', dfn') /\ length wfn' = 60%nat /\ length dfn' = 60%nat /\
    (forall k, (0 <= k <= lmax)%Z -> exists v d, read wfn' k = Some v /\ read dfn' k = Some d /\ checked v d) /\
    (forall k, (lmax < k)%Z -> read dfn' k = read dfn k).
Proof.
  induction fuel as [|fuel IH]; intros l0 lmax eta rho g0 g1 wfn dfn Hl Lw Ld F0 F B; [lia|]. cbn [passes].
  destruct (fLoop_total (Z.to_nat l0) lmax eta rho #0%num (dec 1 (-36)) wfn) as (w & -> & L1); [lia | exact Lw|]. cbn [bind].
  destruct (get_total w 0) as (v0 & -> & _); [lia|]. cbn [bind]. destruct (get_total w 1) as (v1 & -> & _); [lia|]. cbn [bind].
  match goal with |- context [scaleLoop A _ _ ?a _] => destruct (scaleLoop_total (Z.to_nat (lmax + 2)) 0 a w) as (w' & -> & L2); [lia | lia|] end. cbn [bind].
  destruct (checkLoop_total (Z.to_nat (lmax + 1)) 0 eta rho w' dfn) as (failed & dfn' & -> & L3 & _ & Q & Ab); [lia | lia | lia|]. cbn [bind]. destruct failed.
  - destruct (Z.ltb_spec 100 (l0 + 10)); [left; reflexivity|].
    destruct (IH (l0 + 10)%Z lmax eta rho g0 g1 w' dfn') as [E|(wf & df & E & Q1 & Q2 & Q3 & Q4)]; [lia | lia | lia | lia | lia | lia | left; exact E|].
    right. exists wf, df. split; [exact E|]. split; [exact Q1|]. split; [exact Q2|]. split; [exact Q3|]. intros k Hk. rewrite Q4 by lia. apply Ab. lia.
  - destruct (Z.ltb_spec 100 l0); [lia|]. right. exists w', dfn'. split; [reflexivity|]. split; [lia|]. split; [lia|]. split.
    + intros k Hk. apply Q; [reflexivity | lia].
    + intros k Hk. apply Ab. lia.
Qed.

(** * The start *)
Lemma asymptoticLoop_total fuel : forall iter ra y, (0 <= iter)%Z -> (101 <= iter + Z.of_nat fuel)%Z -> (0 < fuel)%nat -> exists o, asymptoticLoop A fuel iter ra y = Ok o.
Proof.
  induction fuel as [|fuel IH]; intros iter ra y H F F0; [lia|]. cbn [asymptoticLoop]. destruct (asymptoticSeries A 100 0 ra y _ _ _ _ _ _ _ _) as [[[gs gt] ps] pt].
  destruct (le _ _); [eauto|]. destruct (Z.ltb_spec 100 (iter + 1)); [eauto|]. apply IH; lia.
Qed.
Lemma newmarkStep_total fuel : forall itr h h2 bt y x g0 f0 r0 r1, (0 <= itr)%Z -> (101 <= itr + Z.of_nat fuel)%Z -> (0 < fuel)%nat ->
  exists o, newmarkStep A fuel itr h h2 bt y x g0 f0 r0 r1 = Ok o.
Proof.
  induction fuel as [|fuel IH]; intros itr h h2 bt y x g0 f0 r0 r1 H F F0; [lia|]. cbn [newmarkStep]. destruct (Z.ltb_spec 100 (itr + 1)); [eauto|].
  destruct (lt _ _); [|eauto]. apply IH; lia.
Qed.
Lemma newmarkLoop_total n : forall i h h2 bt y ra g0 f0 r0 r1, exists p, newmarkLoop A n i h h2 bt y ra g0 f0 r0 r1 = Ok p.
Proof.
  induction n as [|n IH]; intros i h h2 bt y ra g0 f0 r0 r1; cbn [newmarkLoop]; [eauto|].
  destruct (newmarkStep_total 101 0 h h2 bt y (ra + dec i 0 * h)%num g0 f0 r0 r1) as (o & ->); [lia | lia | lia|]. cbn [bind]. destruct o as [[[g1 f1] r]|]; [apply IH | eauto].
Qed.
Lemma omGcase3_total ra y sig : exists p, omGcase3 A ra y sig = Ok p.
Proof. unfold omGcase3. destruct (asymptoticLoop_total 101 0 ra y) as (o & ->); [lia | lia | lia|]. cbn [bind]. eauto. Qed.
Lemma startAsymptotic_total rm c s : exists ra p, startAsymptotic A rm c s = Ok (ra, p).
Proof.
  unfold startAsymptotic. destruct (le _ c); [destruct (lt _ rm); [destruct (le rm _)|]; eauto|]. destruct (le _ c); [destruct (lt _ rm); eauto|].
  match goal with |- context [omGcase3 A ?r _ _] => destruct (omGcase3_total r c s) as (p & ->) end. cbn [bind]. eauto.
Qed.
Lemma int_value_or z : int_value z = Ok z \/ int_value z = UB "signed integer overflow".
Proof. unfold int_value. destruct (_ && _); auto. Qed.
Lemma omAsymptotic_total rm c s : (exists p, omAsymptotic A rm c s = Ok p) \/ exists w, omAsymptotic A rm c s = UB w /\ overflow w.
Proof.
  unfold omAsymptotic. destruct (startAsymptotic_total rm c s) as (ra & [p0 p1] & ->). cbn [bind]. destruct (negb _ && negb _); [|eauto].
  destruct (negb _); [|eauto]. destruct (trunc _) as [k|]; [|right; eexists; split; [reflexivity | left; reflexivity]].
  destruct (int_value_or (k + 1)) as [->| ->]; cbn [bind]; [|right; eexists; split; [reflexivity | right; reflexivity]].
  destruct (int_value_or (Z.abs (k + 1))) as [->| ->]; cbn [bind]; [|right; eexists; split; [reflexivity | right; reflexivity]].
  left. apply newmarkLoop_total.
Qed.

(** * The whole routine *)
Lemma omWaves_total l rho eta g0 g1 wfn dfn : length wfn = 60%nat -> length dfn = 60%nat ->
  omWaves A l rho eta g0 g1 wfn dfn = Throw (RuntimeError "std::exception") \/
  exists wfn' dfn' lmax, omWaves A l rho eta g0 g1 wfn dfn = Ok (wfn', dfn') /\ length wfn' = 60%nat /\ length dfn' = 60%nat /\
    (l <= 58 -> l <= lmax)%Z /\ (lmax <= 58)%Z /\
    (forall k, (0 <= k <= lmax)%Z -> exists v d, read wfn' k = Some v /\ read dfn' k = Some d /\ checked v d) /\
    (forall k, (lmax < k)%Z -> read dfn' k = read dfn k).
Proof.
  intros Lw Ld. unfold omWaves. destruct (set_total wfn 0 (g0, #0)%num) as (w & -> & L1 & _); [lia|]. cbn [bind]. destruct (set_total w 1 (g1, #0)%num) as (w' & -> & L2 & _); [lia|]. cbn [bind].
  cbv zeta. match goal with |- context [gLoop A _ _ _ _ _ ?a _ _ _] => destruct (gLoop_total 59 l 1 eta rho a g0 g1 w') as (l' & w2 & -> & L3 & H & D); [lia | lia | lia|] end. cbn [bind].
  set (lmax := if (l' =? 59)%Z then (l' - 1)%Z else l'). assert (Hm : (1 <= lmax <= 58)%Z /\ (l <= 58 -> l <= lmax)%Z) by (unfold lmax; destruct (Z.eqb_spec l' 59); lia).
  destruct (passes_total 11 (lmax + 10) lmax eta rho g0 g1 w2 dfn) as [E|(wf & df & E & Q1 & Q2 & Q3 & Q4)]; [lia | lia | lia | lia | lia | lia | left; exact E|].
  right. exists wf, df, lmax. split; [exact E|]. split; [exact Q1|]. split; [exact Q2|]. split; [lia|]. split; [lia|]. split; [exact Q3 | exact Q4].
Qed.
Lemma external_total l rho eta sigma0 wfn dfn : length wfn = 60%nat -> length dfn = 60%nat ->
  (eqb eta #0%num = false /\ exists w, omExternalFunction A l rho eta sigma0 wfn dfn = UB w /\ overflow w /\ omAsymptotic A rho eta sigma0 = UB w) \/
  omExternalFunction A l rho eta sigma0 wfn dfn = Throw (RuntimeError "std::exception") \/
  (eqb eta #0%num = false /\ (exists p, omAsymptotic A rho eta sigma0 = Ok p /\ eqb (fst p) #0%num = true /\ eqb (snd p) #0%num = true) /\
     exists wfn', omExternalFunction A l rho eta sigma0 wfn dfn = Ok (wfn', dfn) /\ length wfn' = 60%nat /\
       forall k, read wfn' k = if (k =? 0)%Z then Some (#0, #0)%num else read wfn k) \/
  exists wfn' dfn' lmax, omExternalFunction A l rho eta sigma0 wfn dfn = Ok (wfn', dfn') /\ length wfn' = 60%nat /\ length dfn' = 60%nat /\
    (l <= 58 -> l <= lmax)%Z /\ (lmax <= 58)%Z /\
    (forall k, (0 <= k <= lmax)%Z -> exists v d, read wfn' k = Some v /\ read dfn' k = Some d /\ checked v d) /\
    (forall k, (lmax < k)%Z -> read dfn' k = read dfn k).
Proof.
  intros Lw Ld. unfold omExternalFunction, startValues. destruct (eqb eta #0%num) eqn:Ee.
  - cbn [bind]. right. destruct (omWaves_total l rho eta (fcos rho) (fcos rho / rho + fsin rho)%num wfn dfn Lw Ld) as [E|E]; [left; exact E | right; right; exact E].
  - destruct (omAsymptotic_total rho eta sigma0) as [([p1 p2] & Ea)|(w & Ea & O)]; rewrite Ea; cbn [bind].
    + destruct (eqb p1 #0%num && eqb p2 #0%num) eqn:E1; cbn [bind].
      * right. right. left. apply andb_prop in E1. split; [reflexivity|]. split; [exists (p1, p2); split; [reflexivity | exact E1]|].
        destruct (set_total wfn 0 (#0, #0)%num) as (w & -> & L & Rd); [lia|]. exists w. cbn [bind]. split; [reflexivity|]. split; [lia | exact Rd].
      * right. match goal with |- context [omWaves A l rho eta p1 ?g] => destruct (omWaves_total l rho eta p1 g wfn dfn Lw Ld) as [E|E]; [left; exact E | right; right; exact E] end.
    + left. split; [reflexivity|]. exists w. auto.
Qed.
Lemma read_zeros k : read (repeat (#0, #0)%num 60) k = if ((0 <=? k) && (k <? 60))%Z then Some (#0, #0)%num else None.
Proof.
  unfold read. destruct (Z.ltb_spec k 0), (Z.leb_spec 0 k), (Z.ltb_spec k 60); try lia; cbn [andb]; try reflexivity.
  - apply nth_error_repeat. lia.
  - apply nth_error_None. rewrite repeat_length. lia.
Qed.

Theorem waves_checked l rho eta : (0 <= l <= 58)%Z ->
  match coulombWaveFunctions A l rho eta with
  | Ok (gf, dgf) => checked gf dgf \/
      (gf = (#0, #0) /\ dgf = (#0, #0) /\ eqb eta #0 = false /\
       exists p, omAsymptotic A rho eta (sigma0_of A eta) = Ok p /\ eqb (fst p) #0 = true /\ eqb (snd p) #0 = true)%num
  | Throw e => e = RuntimeError "std::exception"
  | UB w => overflow w /\ omAsymptotic A rho eta (sigma0_of A eta) = UB w
  | Diverge => False
  end.
Proof.
  intros Hl. unfold coulombWaveFunctions.
  destruct (external_total l rho eta (sigma0_of A eta) (repeat (#0, #0)%num 60) (repeat (#0, #0)%num 60)) as [(Ee & w & E & O & E')|[E|[(Ee & P & w' & E & L & Rw)|(w & d & lmax & E & Lw & Ld & H1 & H2 & H3 & _)]]];
    try apply repeat_length; rewrite E; cbn [bind]; auto.
  - destruct (get_total w' l) as (gf & -> & Rg); [lia|]. cbn [bind]. destruct (get_total (repeat (#0, #0)%num 60) l) as (dgf & -> & Rd); [rewrite repeat_length; lia|]. cbn [bind].
    right. rewrite read_zeros in Rd. rewrite Rw, read_zeros in Rg. destruct (Z.leb_spec 0 l), (Z.ltb_spec l 60); try lia. cbn [andb] in *. injection Rd as <-.
    destruct (Z.eqb_spec l 0); injection Rg as <-; auto.
  - destruct (H3 l) as (v & x & Rv & Rx & C); [lia|]. rewrite (proj2 (get_read w l v) Rv). cbn [bind]. rewrite (proj2 (get_read d l x) Rx). cbn [bind]. left. exact C.
Qed.
Theorem waves_last rho eta gf dgf : coulombWaveFunctions A 59 rho eta = Ok (gf, dgf) -> dgf = (#0, #0)%num.
Proof.
  unfold coulombWaveFunctions.
  destruct (external_total 59 rho eta (sigma0_of A eta) (repeat (#0, #0)%num 60) (repeat (#0, #0)%num 60)) as [(Ee & w & E & O & E')|[E|[(Ee & P & w' & E & L & Rw)|(w & d & lmax & E & Lw & Ld & H1 & H2 & H3 & H4)]]];
    try apply repeat_length; rewrite E; cbn [bind]; try discriminate; intros H; apply bind_Ok in H as (x & _ & H); apply bind_Ok in H as (y & Hy & H); injection H as _ <-; apply get_read in Hy.
  - rewrite read_zeros in Hy. injection Hy as <-. reflexivity.
  - rewrite H4, read_zeros in Hy by lia. injection Hy as <-. reflexivity.
Qed.
Theorem waves_beyond l rho eta : ~ (0 <= l < 60)%Z ->
  coulombWaveFunctions A l rho eta = UB "array index out of bounds" \/ coulombWaveFunctions A l rho eta = Throw (RuntimeError "std::exception") \/
  exists w, coulombWaveFunctions A l rho eta = UB w /\ overflow w.
Proof.
  intros Hl. unfold coulombWaveFunctions.
  destruct (external_total l rho eta (sigma0_of A eta) (repeat (#0, #0)%num 60) (repeat (#0, #0)%num 60)) as [(Ee & w & E & O & E')|[E|[(Ee & P & w' & E & L & Rw)|(w & d & lmax & E & Lw & Ld & H1 & H2 & H3 & H4)]]];
    try apply repeat_length; rewrite E; cbn [bind]; eauto; left; rewrite get_out by lia; reflexivity.
Qed.
End Any.
