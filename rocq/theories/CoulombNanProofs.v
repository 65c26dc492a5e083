(** Numbers that are not numbers pass the check of the Wronskian. *)
From Coq Require Import String List ZArith Reals Bool Lia Lra.
From Verif Require Import Outcome ListFacts CoulombWaveModel CoulombWaveSpec CoulombWaveProofs CoulombExactModel CoulombExactProofs.
Import ListNotations.
Open Scope R_scope.

Lemma add_nan_l x : ext_add NaN x = NaN. Proof. destruct x; reflexivity. Qed.
Lemma add_nan_r x : ext_add x NaN = NaN. Proof. destruct x; reflexivity. Qed.
Lemma sub_nan_l x : ext_sub NaN x = NaN. Proof. destruct x; reflexivity. Qed.
Lemma sub_nan_r x : ext_sub x NaN = NaN. Proof. destruct x; reflexivity. Qed.
Lemma mul_nan_l x : ext_mul NaN x = NaN. Proof. destruct x; reflexivity. Qed.
Lemma mul_nan_r x : ext_mul x NaN = NaN. Proof. destruct x; reflexivity. Qed.
Lemma div_nan_l x : ext_div NaN x = NaN. Proof. destruct x; reflexivity. Qed.
Lemma div_nan_r x : ext_div x NaN = NaN. Proof. destruct x; reflexivity. Qed.
Lemma lt_nan_r x : ext_lt x NaN = false. Proof. destruct x; reflexivity. Qed.
Ltac nan := repeat (rewrite ?add_nan_l, ?add_nan_r, ?sub_nan_l, ?sub_nan_r, ?mul_nan_l, ?mul_nan_r, ?div_nan_l, ?div_nan_r, ?lt_nan_r; cbn [ext_abs ext_eq ext_lt negb andb]).

Lemma Gfunction_nan l eta rho : omGfunction exact l eta rho NaN NaN = NaN.
Proof. unfold omGfunction. cbn [exact add sub mul div fsqrt dec]. nan. reflexivity. Qed.
Lemma Dfunction_nan l eta rho : omDfunction exact l eta rho NaN NaN = NaN.
Proof. unfold omDfunction. cbn [exact add sub mul div fsqrt dec]. nan. reflexivity. Qed.

(** the first number of a cell *)
Definition first_nan (w : cells) (k : Z) : Prop := exists v, ex_read w k = Some (NaN, v).
Lemma gLoop_nan fuel : forall lmax l eta rho a wfn, length wfn = 60%nat -> (1 <= l <= 59)%Z -> (60 - l <= Z.of_nat fuel)%Z -> (forall k, (0 <= k <= l)%Z -> first_nan wfn k) ->
  exists wfn', gLoop exact fuel lmax l eta rho a NaN NaN wfn = Ok (59%Z, wfn') /\ length wfn' = 60%nat /\ forall k, (0 <= k <= 59)%Z -> first_nan wfn' k.
Proof.
  induction fuel as [|fuel IH]; intros lmax l eta rho a wfn L H F Q; [lia|]. cbn [gLoop]. destruct (Z.ltb_spec l 59).
  - rewrite Gfunction_nan. match goal with |- context [array_set exact wfn ?i ?v] => destruct (set_total exact wfn i v) as (w & -> & Lw & Rw); [lia|] end. cbn [bind].
    cbn [exact lt div mul]. change (CRIT_LMAX) with (CRIT_LMAX : ext). nan. apply IH; [lia | lia | lia|]. intros k Hk. unfold first_nan. rewrite Rw. destruct (Z.eqb_spec k (l + 1)); [eexists; reflexivity | apply Q; lia].
  - assert (l = 59%Z) as -> by lia. exists wfn. auto.
Qed.
Lemma imag_first w l x : length w = 60%nat -> (0 <= l < 60)%Z -> (forall k, (0 <= k <= 59)%Z -> first_nan w k) ->
  exists w', array_imag exact w l x = Ok w' /\ length w' = 60%nat /\ (forall k, (0 <= k <= 59)%Z -> first_nan w' k) /\ forall k, ex_read w' k = if (k =? l)%Z then Some (NaN, x) else ex_read w k.
Proof.
  intros L H Q. destruct (imag_total exact w l x) as (w' & v & -> & Lw & Rv & Rw); [lia|]. destruct (Q l ltac:(lia)) as (u & E). rewrite E in Rv. injection Rv as <-. cbn [fst] in Rw.
  exists w'. split; [reflexivity|]. split; [lia|]. split; [|exact Rw]. intros k Hk. unfold first_nan. rewrite Rw. destruct (k =? l)%Z; [eexists; reflexivity | apply Q; exact Hk].
Qed.
Lemma fLoop_nan l : forall lmax eta rho p1 p2 wfn, (lmax <= 58)%Z -> length wfn = 60%nat -> (forall k, (0 <= k <= 59)%Z -> first_nan wfn k) ->
  exists wfn', fLoop exact l lmax eta rho p1 p2 wfn = Ok wfn' /\ length wfn' = 60%nat /\ (forall k, (0 <= k <= 59)%Z -> first_nan wfn' k).
Proof.
  induction l as [|k IH]; intros lmax eta rho p1 p2 wfn H L Q; [exists wfn; auto|]. unfold fLoop; fold (fLoop exact).
  destruct (Z.leb_spec (Z.of_nat (S k)) (lmax + 2)).
  - match goal with |- context [array_imag exact wfn ?i ?x] => destruct (imag_first wfn i x) as (w & -> & Lw & Qw & _); [lia | lia | exact Q|] end. cbn [bind]. apply IH; assumption.
  - cbn [bind]. apply IH; assumption.
Qed.
Lemma scaleLoop_nan n : forall l wfn, (0 <= l)%Z -> (l + Z.of_nat n <= 60)%Z -> length wfn = 60%nat -> (forall k, (0 <= k <= 59)%Z -> first_nan wfn k) ->
  exists wfn', scaleLoop exact n l NaN wfn = Ok wfn' /\ length wfn' = 60%nat /\
    forall k, ex_read wfn' k = if ((l <=? k) && (k <? l + Z.of_nat n))%Z then Some (NaN, NaN) else ex_read wfn k.
Proof.
  induction n as [|n IH]; intros l wfn Hl H L Q; cbn [scaleLoop].
  - exists wfn. split; [reflexivity|]. split; [exact L|]. intros k. destruct (Z.leb_spec l k), (Z.ltb_spec k (l + Z.of_nat 0)); try lia; reflexivity.
  - destruct (get_total exact wfn l) as (v & -> & _); [lia|]. cbn [bind]. cbn [exact mul]. nan.
    destruct (imag_first wfn l NaN) as (w & -> & Lw & Qw & Rw); [lia | lia | exact Q|]. cbn [bind]. destruct (IH (l + 1)%Z w) as (w' & -> & L' & R'); [lia | lia | lia | exact Qw|].
    exists w'. split; [reflexivity|]. split; [lia|]. intros k. rewrite R', Rw. destruct (Z.eqb_spec k l), (Z.leb_spec (l + 1) k), (Z.leb_spec l k), (Z.ltb_spec k (l + 1 + Z.of_nat n)), (Z.ltb_spec k (l + Z.of_nat (S n))); cbn [andb]; try lia; reflexivity.
Qed.
Lemma checkLoop_nan n : forall l eta rho wfn dfn, (0 <= l)%Z -> (l + Z.of_nat n <= 59)%Z -> length dfn = 60%nat -> (forall k, (l <= k <= l + Z.of_nat n)%Z -> ex_read wfn k = Some (NaN, NaN)) ->
  exists dfn', checkLoop exact n l eta rho wfn dfn = Ok (false, dfn') /\ length dfn' = 60%nat /\
    forall k, ex_read dfn' k = if ((l <=? k) && (k <? l + Z.of_nat n))%Z then Some (NaN, NaN) else ex_read dfn k.
Proof.
  induction n as [|n IH]; intros l eta rho wfn dfn Hl H L Q; cbn [checkLoop].
  - exists dfn. split; [reflexivity|]. split; [exact L|]. intros k. destruct (Z.leb_spec l k), (Z.ltb_spec k (l + Z.of_nat 0)); try lia; reflexivity.
  - rewrite (proj2 (get_read exact wfn l (NaN, NaN))) by (apply Q; lia). cbn [bind]. rewrite (proj2 (get_read exact wfn (l + 1) (NaN, NaN))) by (apply Q; lia). cbn [bind fst snd].
    rewrite Dfunction_nan. match goal with |- context [array_set exact dfn ?i ?v] => destruct (set_total exact dfn i v) as (d & -> & Ld & Rd); [lia|] end. cbn [bind].
    cbn [exact lt fabs sub mul]. nan. destruct (IH (l + 1)%Z eta rho wfn d) as (d' & -> & L' & R'); [lia | lia | lia | intros; apply Q; lia|].
    exists d'. split; [reflexivity|]. split; [lia|]. intros k. rewrite R', Rd. destruct (Z.eqb_spec k l), (Z.leb_spec (l + 1) k), (Z.leb_spec l k), (Z.ltb_spec k (l + 1 + Z.of_nat n)), (Z.ltb_spec k (l + Z.of_nat (S n))); cbn [andb]; try lia; reflexivity.
Qed.
Lemma passes_step fuel l0 lmax eta rho g0 g1 (wfn dfn : cells) : passes exact (S fuel) l0 lmax eta rho g0 g1 wfn dfn =
      do wfn <- fLoop exact (Z.to_nat l0) lmax eta rho #0%num (dec 1 (-36)) wfn ;
      do v0 <- array_get exact wfn 0 ;
      do v1 <- array_get exact wfn 1 ;
      let a := (#1 / ((snd v0 * g1 - g0 * snd v1) * fsqrt (#1 + eta * eta)))%num in
      do wfn <- scaleLoop exact (Z.to_nat (lmax + 2)) 0 a wfn ;
      do (failed, dfn) <- checkLoop exact (Z.to_nat (lmax + 1)) 0 eta rho wfn dfn ;
      let l0 := if failed then (l0 + 10)%Z else l0 in
      if (100 <? l0)%Z then Throw (RuntimeError "std::exception")
      else if failed then passes exact fuel l0 lmax eta rho g0 g1 wfn dfn
      else Ok (wfn, dfn).
Proof. reflexivity. Qed.
(** Starting values that are not numbers: nothing is, and nobody notices *)
Lemma waves_nan l rho eta wfn dfn : length wfn = 60%nat -> length dfn = 60%nat ->
  exists wfn' dfn', omWaves exact l rho eta NaN NaN wfn dfn = Ok (wfn', dfn') /\
    forall k, (0 <= k <= 58)%Z -> ex_read wfn' k = Some (NaN, NaN) /\ ex_read dfn' k = Some (NaN, NaN).
Proof.
  intros Lw Ld. unfold omWaves.
  match goal with |- context [array_set exact wfn 0 ?v] => destruct (set_total exact wfn 0 v) as (w & -> & L1 & R1); [lia|] end. cbn [bind].
  match goal with |- context [array_set exact w 1 ?v] => destruct (set_total exact w 1 v) as (w' & -> & L2 & R2); [lia|] end. cbn [bind]. cbv zeta.
  match goal with |- context [gLoop exact _ _ _ _ _ ?a _ _ _] => destruct (gLoop_nan 59 l 1 eta rho a w') as (w2 & E & L3 & Q); [lia | lia | lia | |] end.
  { intros k Hk. unfold first_nan. rewrite R2, R1. destruct (Z.eqb_spec k 1) as [->|]; [eexists; reflexivity|]. destruct (Z.eqb_spec k 0) as [->|]; [eexists; reflexivity | lia]. }
  rewrite E. cbn [bind]. change (59 =? 59)%Z with true. cbv iota. change (59 - 1)%Z with 58%Z. change (58 + 10)%Z with 68%Z. rewrite passes_step.
  match goal with |- context [fLoop exact ?n ?lm ?e ?r ?a ?b w2] => destruct (fLoop_nan n lm e r a b w2) as (w3 & -> & L4 & Q4); [lia | lia | exact Q|] end. cbn [bind].
  destruct (Q4 0%Z ltac:(lia)) as (v0 & E0). destruct (Q4 1%Z ltac:(lia)) as (v1 & E1). rewrite (proj2 (get_read exact _ _ _) E0), (proj2 (get_read exact _ _ _) E1). cbn [bind snd].
  cbn [exact add sub mul div fsqrt dec]. nan.
  destruct (scaleLoop_nan (Z.to_nat (58 + 2)) 0 w3) as (w4 & -> & L5 & R5); [lia | lia | lia | exact Q4|]. cbn [bind].
  destruct (checkLoop_nan (Z.to_nat (58 + 1)) 0 eta rho w4 dfn) as (d & -> & L6 & R6); [lia | lia | lia | |].
  { intros k Hk. rewrite R5. destruct (Z.leb_spec 0 k), (Z.ltb_spec k (0 + Z.of_nat (Z.to_nat (58 + 2)))); try lia; reflexivity. }
  cbn [bind]. change (100 <? 68)%Z with false. cbv iota. exists w4, d. split; [reflexivity|]. intros k Hk. rewrite R5, R6.
  destruct (Z.leb_spec 0 k), (Z.ltb_spec k (0 + Z.of_nat (Z.to_nat (58 + 2)))), (Z.ltb_spec k (0 + Z.of_nat (Z.to_nat (58 + 1)))); try lia; auto.
Qed.

(** * At a threshold: rho = 0 and an infinite Sommerfeld parameter *)
Lemma newmarkStep_nan fuel h h2 bt y x r0 r1 : newmarkStep exact (S fuel) 0 h h2 bt y x NaN NaN r0 r1 = Ok (Some (NaN, NaN, NaN)).
Proof. cbn [newmarkStep]. cbn [exact add sub mul div fabs lt eqb dec]. nan. reflexivity. Qed.
Lemma newmark_nan n : forall i h h2 bt y ra r0 r1, newmarkLoop exact n i h h2 bt y ra NaN NaN r0 r1 = Ok (NaN, NaN).
Proof. induction n as [|n IH]; intros; [reflexivity|]. cbn [newmarkLoop]. rewrite newmarkStep_nan. cbn [bind]. apply IH. Qed.
Ltac bind_val val tac := lazymatch goal with
  | |- (let x := ?E in @?B x) = ?rhs =>
      let v := fresh "v" in
      assert (v : E = val) by tac; change (B E = rhs); rewrite v; clear v; cbv beta
  end.
Ltac forget := lazymatch goal with |- (let x := ?E in @?B x) = ?rhs => change (B E = rhs); generalize E; intro; cbv beta end.
Lemma Reqb_refl a : Reqb a a = true.
Proof. unfold Reqb. destruct (Req_EM_T a a); [reflexivity | contradiction]. Qed.
Lemma Reqb_zero a : a = 0 -> Reqb a 0 = true.
Proof. intros ->. apply Reqb_refl. Qed.
Ltac arith := cbn [exact add sub mul div opp fabs fsqrt fexp flog fasin fpow dec lt ext_dec ext_mul ext_add ext_sub ext_opp]; unfold signed.
Lemma case1_infinite ra : omGcase1 exact (Fin ra) (Inf true) = (NaN, NaN).
Proof.
  assert (HP : exists c, 0 < c /\ (PI_2 : exact) = Fin c) by (eexists; split; [|reflexivity]; apply Rdiv_lt_0_compat; apply IZR_lt; reflexivity).
  destruct HP as (c & Hc & HP). cbv beta delta [omGcase1].
  bind_val (Fin 0) ltac:(arith; rewrite Reqb_false by lra; reflexivity).
  bind_val (Fin 0) ltac:(arith; f_equal; ring).
  bind_val (Fin 1) ltac:(arith; f_equal; ring).
  bind_val (Fin 0) ltac:(arith; f_equal; ring).
  bind_val (Fin 0) ltac:(arith; rewrite sqrt_Fin, sqrt_0 by lra; reflexivity).
  assert (A0 : Rabs 0 <= 1) by (rewrite Rabs_R0; lra).
  bind_val (Fin (- c)) ltac:(rewrite HP; arith; rewrite !sqrt_Fin by lra; rewrite Rmult_0_l, sqrt_0; unfold ext_asin; rewrite Rleb_true by exact A0; rewrite asin_0; cbn [ext_add ext_sub]; f_equal; ring).
  bind_val (Inf false) ltac:(arith; rewrite div_Fin by lra; replace (0 / 1) with 0 by lra; unfold ext_log; rewrite Rltb_false, Reqb_refl by lra; change (ext_dec 4 0) with (Fin 4); cbn [ext_div]; unfold signed; rewrite Rltb_false by lra; reflexivity).
  do 6 forget.
  bind_val NaN ltac:(arith; change (ext_dec (-2) 0) with (Fin (-2)); cbn [ext_mul]; unfold signed; rewrite Reqb_false by lra; rewrite (Rltb_true (-2) 0) by lra; cbn [negb ext_mul]; unfold signed; rewrite Reqb_false by lra; rewrite Rltb_true by lra; cbn [negb ext_add Bool.eqb]; nan; reflexivity).
  change (lt #100%num NaN) with false. cbv iota. change (fexp NaN) with NaN. cbv zeta. arith. nan. reflexivity.
Qed.
Theorem threshold_nan l : (0 <= l <= 58)%Z -> coulombWaveFunctions exact l (Fin 0) (Inf true) = Ok ((NaN, NaN), (NaN, NaN)).
Proof.
  intros Hl. unfold coulombWaveFunctions, omExternalFunction, startValues. change (eqb (Inf true) #0%num) with false. cbv iota.
  assert (E : omAsymptotic exact (Fin 0) (Inf true) (sigma0_of exact (Inf true)) = Ok (NaN, NaN)).
  { unfold omAsymptotic, startAsymptotic. change (le #15%num (Inf true)) with true. cbv iota. cbv zeta.
    assert (L : lt (#16%num : exact) (Fin 0) = false) by (apply Rltb_false; lra). rewrite L. cbn [bind].
    change (#16%num : ext) with (Fin 16). rewrite case1_infinite. change (eqb NaN #0%num) with false. cbn [negb andb].
    assert (D : sub (#16%num : exact) (Fin 0) = Fin 16) by (change (Fin (16 - 0) = Fin 16); f_equal; lra). change (#16%num : exact) with (Fin 16 : exact) in D. rewrite D.
    assert (Z0 : eqb (Fin 16 : exact) #0%num = false) by (apply Reqb_false; lra). rewrite Z0. cbn [negb].
    assert (T : exists k, trunc (div (Fin 16 : exact) MESH_RHO) = Some k /\ (0 <= k <= 1600)%Z).
    { change (exists k, ext_trunc (ext_div (Fin 16) (Fin (1 / 100))) = Some k /\ (0 <= k <= 1600)%Z). rewrite div_Fin by lra. cbn [ext_trunc]. unfold Rtrunc. rewrite Rltb_false by lra.
      destruct (base_Int_part (16 / (1 / 100))) as [B1 B2]. set (k := Int_part _) in *.
      assert (K1 : (k <= 1600)%Z) by (apply le_IZR; lra). assert (K2 : (-1 < k)%Z) by (apply lt_IZR; lra).
      exists k. split; [|lia]. destruct (Z.leb_spec (-2147483648) k), (Z.leb_spec k 2147483647); try lia; reflexivity. }
    destruct T as (k & -> & Hk). unfold int_value. destruct (Z.leb_spec (-2147483648) (k + 1)), (Z.leb_spec (k + 1) 2147483647); try lia. cbn [andb bind].
    destruct (Z.leb_spec (-2147483648) (Z.abs (k + 1))), (Z.leb_spec (Z.abs (k + 1)) 2147483647); try lia. cbn [andb bind]. unfold omNewmark. cbv zeta. apply newmark_nan. }
  rewrite E. cbn [bind]. change (eqb NaN #0%num) with false. cbn [andb]. cbv iota.
  match goal with |- context [Some (NaN, ?g)] => assert (G : g = NaN) by (arith; nan; reflexivity); rewrite G; clear G end. cbn [bind].
  destruct (waves_nan l (Fin 0) (Inf true) (repeat (#0, #0)%num 60) (repeat (#0, #0)%num 60)) as (w & d & -> & Q); try apply repeat_length. cbn [bind].
  destruct (Q l Hl) as [Q1 Q2]. rewrite (proj2 (get_read exact _ _ _) Q1), (proj2 (get_read exact _ _ _) Q2). reflexivity.
Qed.
